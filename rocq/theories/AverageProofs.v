(** Proofs about averages over surveys. *)
From Coq Require Import Reals List Bool Arith Lia Lra FunctionalExtensionality.
From Verif Require Import Base DemandSpec FltModel MicroModel MicroSpec MicroProofs AverageModel AverageSpec.
Import ListNotations.
Local Open Scope R_scope.

(** ** Validation *)

Lemma shape_eqb_iff a b : shape_eqb a b = true <-> a = b.
Proof. unfold shape_eqb. destruct (list_eq_dec Nat.eq_dec a b); split; intros; try assumption; try reflexivity; try discriminate; contradiction. Qed.
Lemma below_zero_iff x : fltb x (Num 0) = true <-> below_zero x.
Proof.
  unfold below_zero. destruct x; cbn; split; intros H; try discriminate; auto.
  - unfold rltb in H. destruct (Rlt_dec r 0); [right; exists r; auto|discriminate].
  - destruct H as [H|[x [E L]]]; [discriminate|]. injection E as ->. unfold rltb. destruct (Rlt_dec x 0); [reflexivity|contradiction].
  - destruct H as [H|[x [E L]]]; discriminate.
  - destruct H as [H|[x [E L]]]; discriminate.
Qed.
Lemma documented_iff I J s : existsb (shape_eqb s) (acceptable_shapes I J) = true <-> documented_shape I J s.
Proof.
  rewrite existsb_exists. split.
  - intros [x [H E]]. apply shape_eqb_iff in E. subst x. unfold documented_shape. cbn in H.
    destruct H as [<-|[<-|[<-|[<-|[<-|[<-|[]]]]]]]; eexists; (split; [|first [left; reflexivity|right; eexists; split; [|reflexivity]]]); auto.
  - intros [n [Hn H]]. exists s. split; [|apply shape_eqb_iff; reflexivity]. cbn.
    destruct H as [->|[k [Hk ->]]]; destruct Hn as [->| ->]; try (destruct Hk as [->| ->]); tauto.
Qed.

Lemma weights_accepted I J user a : compute_micro_weights I J user = Accepted a <->
  user = Some a /\ documented_shape I J (rt_shape a) /\ (forall x, In x (rt_elements a) -> ~ below_zero x).
Proof.
  unfold compute_micro_weights. destruct user as [w|]; [|split; [discriminate|intros [H _]; discriminate]].
  destruct (existsb (shape_eqb (rt_shape w)) (acceptable_shapes I J)) eqn:E; cbn [negb].
  - destruct (existsb (fun x => fltb x (Num 0)) (rt_elements w)) eqn:B.
    + split; [discriminate|]. intros [H [_ N]]. injection H as <-. apply existsb_exists in B. destruct B as [x [I1 L]].
      exfalso. apply (N x I1). apply below_zero_iff. exact L.
    + split.
      * intros H. injection H as <-. split; [reflexivity|]. split; [apply documented_iff; exact E|]. intros x I1 L.
        apply not_true_iff_false in B. apply B. apply existsb_exists. exists x. split; [exact I1|apply below_zero_iff; exact L].
      * intros [H _]. injection H as <-. reflexivity.
  - split; [discriminate|]. intros [H [D _]]. injection H as <-. apply documented_iff in D. congruence.
Qed.

Lemma values_accepted w user a : compute_micro_values w user = Accepted a <-> user = Some a /\ rt_shape a = rt_shape w.
Proof.
  unfold compute_micro_values. destruct user as [v|]; [|split; [discriminate|intros [H _]; discriminate]].
  destruct (shape_eqb (rt_shape v) (rt_shape w)) eqn:E; cbn [negb].
  - apply shape_eqb_iff in E. split; [intros H; injection H as <-; auto|]. intros [H _]. injection H as <-. reflexivity.
  - split; [discriminate|]. intros [H D]. injection H as <-. apply shape_eqb_iff in D. congruence.
Qed.

(** Lengths of axes say which options are in them. *)
Lemma options_length o J : List.length (options_of o J) = if o then S J else J.
Proof. unfold options_of. rewrite app_length, map_length, seq_length. destruct o; reflexivity. Qed.
Lemma shapes_read I J s : documented_shape I J s -> exists sh, read_shape J s = Some sh /\
  match sh with
  | Two o => s = [I; List.length (options_of o J)]
  | Three o1 o2 => s = [I; List.length (options_of o1 J); List.length (options_of o2 J)]
  end.
Proof.
  assert (E : forall n, n = J \/ n = S J -> n = List.length (options_of (Nat.eqb n (1 + J)) J)).
  { intros n Hn. rewrite options_length. destruct (Nat.eqb_spec n (1 + J)); lia. }
  intros [n [Hn [->|[k [Hk ->]]]]]; eexists; (split; [reflexivity|]); cbv beta iota.
  - rewrite <- (E n Hn). reflexivity.
  - rewrite <- (E n Hn), <- (E k Hk). reflexivity.
Qed.

(** ** Sums *)

Lemma numerator_integral chunks ms part : numerator chunks ms part =
  sum_over ms (fun m => integral (fst m) (m_J (snd m)) (m_I (snd m)) (fun i c => dataset_weight (snd m) i c * m_value (snd m) part i c)).
Proof. unfold numerator, part_numerator. apply so_ext. intros m _. apply chunks_sum. Qed.
Lemma denominator_integral chunks ms : denominator chunks ms =
  sum_over ms (fun m => integral (fst m) (m_J (snd m)) (m_I (snd m)) (dataset_weight (snd m))).
Proof. unfold denominator, part_denominator. apply so_ext. intros m _. apply chunks_sum. Qed.
Definition second_moment chunks ms p q : R := sum_over ms (fun m => part_covariance_numerator (fst m) (snd m) chunks p q).
Lemma second_integral chunks ms p q : second_moment chunks ms p q =
  sum_over ms (fun m => integral (fst m) (m_J (snd m)) (m_I (snd m)) (fun i c => dataset_weight (snd m) i c * m_value (snd m) p i c * m_value (snd m) q i c)).
Proof. unfold second_moment, part_covariance_numerator. apply so_ext. intros m _. apply chunks_sum. Qed.
Lemma numerator_jacobian_integral chunks ms part : numerator_jacobian chunks ms part =
  sum_over ms (fun m => integral (fst m) (m_J (snd m)) (m_I (snd m)) (fun i c => weight_tangent (snd m) i c * m_value (snd m) part i c)).
Proof. unfold numerator_jacobian, part_numerator_jacobian. apply so_ext. intros m _. apply chunks_sum. Qed.

Lemma integral_ext s J I f g : (forall i c, (i < I)%nat -> In c (cells s J) -> f i c = g i c) -> integral s J I f = integral s J I g.
Proof. intros H. unfold integral. apply sumn_ext. intros i Hi. apply so_ext. intros c Hc. apply H; assumption. Qed.
Lemma integral_scal s J I k f : integral s J I (fun i c => k * f i c) = k * integral s J I f.
Proof. unfold integral. rewrite <- sumn_scal. apply sumn_ext. intros i _. apply so_scal. Qed.
Lemma integral_plus s J I f g : integral s J I (fun i c => f i c + g i c) = integral s J I f + integral s J I g.
Proof. unfold integral. rewrite <- sumn_plus. apply sumn_ext. intros i _. apply so_plus. Qed.
Lemma integral_nonneg s J I f : (forall i c, (i < I)%nat -> In c (cells s J) -> 0 <= f i c) -> 0 <= integral s J I f.
Proof. intros H. unfold integral. apply sumn_nonneg. intros i Hi. apply so_nonneg. intros c Hc. apply H; assumption. Qed.

(** ** Units *)

Lemma forallb_ext {A} (f g : A -> bool) l : (forall x, f x = g x) -> forallb f l = forallb g l.
Proof. intros H. induction l as [|x l IH]; cbn; [reflexivity|]. rewrite H, IH. reflexivity. Qed.

Lemma truncate_scal c x : 0 <= c -> truncate (c * x) = c * truncate x.
Proof.
  intros Hc. unfold truncate. destruct (Rlt_dec x 0) as [L|L]; destruct (Rlt_dec (c * x) 0) as [L'|L']; try reflexivity; try ring; nra.
Qed.

Section Units.
Variables (c d : R).
Hypothesis Hc : 0 < c.
Hypothesis Hd : 0 < d.
Lemma units_weight m i x : dataset_weight (other_units c d m) i x = c * d * dataset_weight m i x.
Proof.
  unfold dataset_weight, other_units. cbn [m_weight m_agent_weight m_J m_same m_p].
  replace (c * m_weight m i x * (d * m_agent_weight m i) * probability (m_J m) (m_same m) (m_p m i) x)
    with ((c * d) * (m_weight m i x * m_agent_weight m i * probability (m_J m) (m_same m) (m_p m i) x)) by ring.
  apply truncate_scal. apply Rlt_le, Rmult_lt_0_compat; assumption.
Qed.
Lemma units_tangent m i x : weight_tangent (other_units c d m) i x = c * d * weight_tangent m i x.
Proof. unfold weight_tangent, other_units. cbn [m_weight m_agent_weight m_J m_same m_p m_dp]. ring. Qed.
Lemma units_constant s m chunk : constant_denominator s (other_units c d m) chunk = constant_denominator s m chunk.
Proof.
  unfold constant_denominator. cbn [other_units m_J m_weight]. destruct chunk as [|first rest]; [reflexivity|].
  assert (E : forall a b, reqb (c * a) (c * b) = reqb a b).
  { intros a b. unfold reqb. destruct (Req_EM_T (c * a) (c * b)) as [e|n]; destruct (Req_EM_T a b) as [e'|n']; try reflexivity; exfalso.
    - apply n'. apply (Rmult_eq_reg_l c); lra.
    - apply n. rewrite e'. reflexivity. }
  f_equal.
  - apply forallb_ext. intros i. apply forallb_ext. intros x. apply E.
  - destruct s as [o|o1 o2]; [reflexivity|]. f_equal. apply forallb_ext. intros i. apply forallb_ext. intros [a|a b]; [reflexivity|apply E].
Qed.
Lemma units_chunk_sum s m (f g : nat -> cell -> R) k chunk : (forall i x, f i x = k * g i x) -> chunk_sum s (other_units c d m) f chunk = k * chunk_sum s m g chunk.
Proof.
  intros H. unfold chunk_sum. cbn [other_units m_J]. rewrite <- so_scal. apply so_ext. intros i _. rewrite <- so_scal. apply so_ext. intros x _. apply H.
Qed.
Lemma units_denominator_jacobian chunks ms : denominator_jacobian chunks (each (other_units c d) ms) = c * d * denominator_jacobian chunks ms.
Proof.
  unfold denominator_jacobian, each. rewrite so_map. rewrite <- so_scal. apply so_ext. intros m _. cbn [fst snd].
  unfold part_denominator_jacobian. cbn [other_units m_I]. rewrite <- so_scal. apply so_ext. intros chunk _. unfold denominator_tangent.
  rewrite units_constant. destruct (constant_denominator (fst m) (snd m) chunk); [ring|]. apply units_chunk_sum. intros. apply units_tangent.
Qed.
Lemma units_numerator chunks ms part : numerator chunks (each (other_units c d) ms) part = c * d * numerator chunks ms part.
Proof.
  rewrite !numerator_integral. unfold each. rewrite so_map, <- so_scal. apply so_ext. intros m _. cbn [fst snd other_units m_J m_I m_value].
  rewrite <- integral_scal. apply integral_ext. intros i x _ _. rewrite units_weight. ring.
Qed.
Lemma units_numerator_jacobian chunks ms part : numerator_jacobian chunks (each (other_units c d) ms) part = c * d * numerator_jacobian chunks ms part.
Proof.
  rewrite !numerator_jacobian_integral. unfold each. rewrite so_map, <- so_scal. apply so_ext. intros m _. cbn [fst snd other_units m_J m_I m_value].
  rewrite <- integral_scal. apply integral_ext. intros i x _ _. rewrite units_tangent. ring.
Qed.
Lemma units_denominator chunks ms : denominator chunks (each (other_units c d) ms) = c * d * denominator chunks ms.
Proof.
  rewrite !denominator_integral. unfold each. rewrite so_map, <- so_scal. apply so_ext. intros m _. cbn [fst snd other_units m_J m_I].
  rewrite <- integral_scal. apply integral_ext. intros i x _ _. apply units_weight.
Qed.
Lemma units_second chunks ms p q : second_moment chunks (each (other_units c d) ms) p q = c * d * second_moment chunks ms p q.
Proof.
  rewrite !second_integral. unfold each. rewrite so_map, <- so_scal. apply so_ext. intros m _. cbn [fst snd other_units m_J m_I m_value].
  rewrite <- integral_scal. apply integral_ext. intros i x _ _. rewrite units_weight. ring.
Qed.
Lemma cancel k x y : 0 < k -> k * x / (k * y) = x / y.
Proof.
  intros Hk. destruct (Req_EM_T y 0) as [->|N]; [rewrite Rmult_0_r; unfold Rdiv; rewrite RIneq.Rinv_0; ring|]. field. split; lra.
Qed.
Lemma units_value chunks ms part : part_value chunks (each (other_units c d) ms) part = part_value chunks ms part.
Proof. unfold part_value. rewrite units_numerator, units_denominator. apply cancel. apply Rmult_lt_0_compat; assumption. Qed.
Lemma units_jacobian chunks ms part : part_jacobian chunks (each (other_units c d) ms) part = part_jacobian chunks ms part.
Proof.
  unfold part_jacobian. rewrite units_value, units_numerator_jacobian, units_denominator_jacobian, units_denominator.
  replace (c * d * numerator_jacobian chunks ms part - part_value chunks ms part * (c * d * denominator_jacobian chunks ms))
    with (c * d * (numerator_jacobian chunks ms part - part_value chunks ms part * denominator_jacobian chunks ms)) by ring.
  apply cancel. apply Rmult_lt_0_compat; assumption.
Qed.
Lemma units_covariance chunks ms n p q : part_covariance chunks (each (other_units c d) ms) n p q = part_covariance chunks ms n p q.
Proof.
  unfold part_covariance. fold (second_moment chunks (each (other_units c d) ms) p q). fold (second_moment chunks ms p q).
  rewrite !units_value, units_second, units_denominator, cancel; [reflexivity|]. apply Rmult_lt_0_compat; assumption.
Qed.
End Units.

(** ** Values *)

Lemma values_numerator a b chunks ms part : numerator chunks (each (other_values a b) ms) part = a part * numerator chunks ms part + b part * denominator chunks ms.
Proof.
  rewrite !numerator_integral, denominator_integral. unfold each. rewrite so_map, <- !so_scal, <- so_plus. apply so_ext. intros m _.
  cbn [fst snd other_values m_J m_I m_value]. rewrite <- !integral_scal, <- integral_plus. apply integral_ext. intros i x _ _.
  change (dataset_weight (other_values a b (snd m)) i x) with (dataset_weight (snd m) i x). ring.
Qed.
Lemma values_denominator a b chunks ms : denominator chunks (each (other_values a b) ms) = denominator chunks ms.
Proof. rewrite !denominator_integral. unfold each. rewrite so_map. reflexivity. Qed.
Lemma values_affine a b chunks ms part : denominator chunks ms <> 0 ->
  part_value chunks (each (other_values a b) ms) part = a part * part_value chunks ms part + b part.
Proof. intros N. unfold part_value. rewrite values_numerator, values_denominator. field. exact N. Qed.
Lemma values_second a b chunks ms p q : second_moment chunks (each (other_values a b) ms) p q =
  a p * a q * second_moment chunks ms p q + a p * b q * numerator chunks ms p + a q * b p * numerator chunks ms q + b p * b q * denominator chunks ms.
Proof.
  rewrite !second_integral, !numerator_integral, denominator_integral. unfold each. rewrite so_map, <- !so_scal, <- !so_plus. apply so_ext. intros m _.
  cbn [fst snd other_values m_J m_I m_value]. rewrite <- !integral_scal, <- !integral_plus. apply integral_ext. intros i x _ _.
  change (dataset_weight (other_values a b (snd m)) i x) with (dataset_weight (snd m) i x). ring.
Qed.
Lemma values_covariance a b chunks ms n p q : denominator chunks ms <> 0 ->
  part_covariance chunks (each (other_values a b) ms) n p q = a p * a q * part_covariance chunks ms n p q.
Proof.
  intros N. unfold part_covariance. fold (second_moment chunks (each (other_values a b) ms) p q). fold (second_moment chunks ms p q).
  rewrite !values_affine by exact N. rewrite values_second, values_denominator. unfold part_value.
  unfold Rdiv. set (u := / n). set (v := / denominator chunks ms). replace 1 with 1 by reflexivity.
  assert (E : denominator chunks ms * v = 1) by (unfold v; field; exact N).
  set (D := denominator chunks ms) in *. set (P := numerator chunks ms p). set (Q := numerator chunks ms q). set (T := second_moment chunks ms p q).
  replace ((a p * a q * T + a p * b q * P + a q * b p * Q + b p * b q * D) * v) with (a p * a q * (T * v) + a p * b q * (P * v) + a q * b p * (Q * v) + b p * b q * (D * v)) by ring.
  rewrite E. ring.
Qed.

(** ** Averages *)

Lemma weight_nonneg m i x : 0 <= dataset_weight m i x.
Proof. unfold dataset_weight, truncate. destruct (Rlt_dec _ 0); lra. Qed.
Lemma weight_unsurveyed m i x : m_weight m i x = 0 -> dataset_weight m i x = 0.
Proof. intros E. unfold dataset_weight. rewrite E, !Rmult_0_l. unfold truncate. destruct (Rlt_dec 0 0); reflexivity. Qed.
Lemma average_range chunks ms part lo hi : 0 < denominator chunks ms ->
  (forall m i x, In m ms -> (i < m_I (snd m))%nat -> In x (cells (fst m) (m_J (snd m))) -> m_weight (snd m) i x <> 0 -> lo <= m_value (snd m) part i x <= hi) ->
  lo <= part_value chunks ms part <= hi.
Proof.
  intros P H.
  assert (B : lo * denominator chunks ms <= numerator chunks ms part <= hi * denominator chunks ms).
  { rewrite denominator_integral, numerator_integral, <- !so_scal.
    assert (K : forall k, (forall m i x, In m ms -> (i < m_I (snd m))%nat -> In x (cells (fst m) (m_J (snd m))) -> m_weight (snd m) i x <> 0 -> 0 <= m_value (snd m) part i x - k) ->
      0 <= sum_over ms (fun m => integral (fst m) (m_J (snd m)) (m_I (snd m)) (fun i c => dataset_weight (snd m) i c * m_value (snd m) part i c))
         - sum_over ms (fun m => k * integral (fst m) (m_J (snd m)) (m_I (snd m)) (dataset_weight (snd m))) /\ True).
    { intros k Hk. split; [|exact I]. rewrite <- so_minus. apply so_nonneg. intros m Hm. rewrite <- integral_scal.
      replace (integral (fst m) (m_J (snd m)) (m_I (snd m)) (fun i c => dataset_weight (snd m) i c * m_value (snd m) part i c)
        - integral (fst m) (m_J (snd m)) (m_I (snd m)) (fun i c => k * dataset_weight (snd m) i c))
        with (integral (fst m) (m_J (snd m)) (m_I (snd m)) (fun i c => dataset_weight (snd m) i c * (m_value (snd m) part i c - k))).
      2: { unfold integral. rewrite <- sumn_minus. apply sumn_ext. intros i _. rewrite <- so_minus. apply so_ext. intros; ring. }
      apply integral_nonneg. intros i x Hi Hx. destruct (Req_EM_T (m_weight (snd m) i x) 0) as [E|N].
      - rewrite (weight_unsurveyed _ _ _ E). lra.
      - apply Rmult_le_pos; [apply weight_nonneg|apply Hk; assumption]. }
    split.
    - destruct (K lo) as [A _]; [intros; specialize (H m i x); intuition lra|lra].
    - assert (A : 0 <= sum_over ms (fun m => hi * integral (fst m) (m_J (snd m)) (m_I (snd m)) (dataset_weight (snd m)))
         - sum_over ms (fun m => integral (fst m) (m_J (snd m)) (m_I (snd m)) (fun i c => dataset_weight (snd m) i c * m_value (snd m) part i c))).
      { rewrite <- so_minus. apply so_nonneg. intros m Hm. rewrite <- integral_scal.
        replace (integral (fst m) (m_J (snd m)) (m_I (snd m)) (fun i c => hi * dataset_weight (snd m) i c)
          - integral (fst m) (m_J (snd m)) (m_I (snd m)) (fun i c => dataset_weight (snd m) i c * m_value (snd m) part i c))
          with (integral (fst m) (m_J (snd m)) (m_I (snd m)) (fun i c => dataset_weight (snd m) i c * (hi - m_value (snd m) part i c))).
        2: { unfold integral. rewrite <- sumn_minus. apply sumn_ext. intros i _. rewrite <- so_minus. apply so_ext. intros; ring. }
        apply integral_nonneg. intros i x Hi Hx. destruct (Req_EM_T (m_weight (snd m) i x) 0) as [E|N].
        - rewrite (weight_unsurveyed _ _ _ E). lra.
        - apply Rmult_le_pos; [apply weight_nonneg|]. assert (Q := H m i x Hm Hi Hx N). lra. }
      lra. }
  unfold part_value. assert (V : 0 < / denominator chunks ms) by (apply Rinv_0_lt_compat; exact P).
  split; apply (Rmult_le_reg_r (denominator chunks ms)); try exact P; unfold Rdiv; rewrite Rmult_assoc, Rinv_l; lra.
Qed.
Lemma average_constant chunks ms part k : 0 < denominator chunks ms ->
  (forall m i x, In m ms -> (i < m_I (snd m))%nat -> In x (cells (fst m) (m_J (snd m))) -> m_weight (snd m) i x <> 0 -> m_value (snd m) part i x = k) ->
  part_value chunks ms part = k /\ forall q n, part_covariance chunks ms n part q = 0.
Proof.
  intros P H. assert (E : part_value chunks ms part = k).
  { destruct (average_range chunks ms part k k P) as [A B]; [|lra]. intros m i x Hm Hi Hx N. rewrite (H m i x Hm Hi Hx N). lra. }
  split; [exact E|]. intros q n. unfold part_covariance. fold (second_moment chunks ms part q). rewrite E.
  assert (T : second_moment chunks ms part q = k * numerator chunks ms q).
  { rewrite second_integral, numerator_integral, <- so_scal. apply so_ext. intros m Hm. rewrite <- integral_scal. apply integral_ext. intros i x Hi Hx.
    destruct (Req_EM_T (m_weight (snd m) i x) 0) as [Z|N]; [rewrite (weight_unsurveyed _ _ _ Z); ring|]. rewrite (H m i x Hm Hi Hx N). ring. }
  rewrite T. unfold part_value, Rdiv. ring.
Qed.

(** ** Populations *)

Lemma probability_p J same p p' x : (forall j, p j = p' j) -> probability J same p x = probability J same p' x.
Proof. intros E. replace p' with p by (apply functional_extensionality; exact E). reflexivity. Qed.
Lemma tangent_p J same p p' dp dp' x : (forall j, p j = p' j) -> (forall j, dp j = dp' j) -> tangent J same p dp x = tangent J same p' dp' x.
Proof.
  intros E E'. replace p' with p by (apply functional_extensionality; exact E). replace dp' with dp by (apply functional_extensionality; exact E'). reflexivity.
Qed.
Lemma sumn_fibre n k h (w f : nat -> R) : (forall i, (i < k)%nat -> (h i < n)%nat) ->
  sumn k (fun i => w i * f (h i)) = sumn n (fun j => sumn k (fun i => if Nat.eqb (h i) j then w i else 0) * f j).
Proof.
  intros H. transitivity (sumn n (fun j => sumn k (fun i => (if Nat.eqb (h i) j then w i else 0) * f j))).
  2: { apply sumn_ext. intros j _. apply sumn_scal_r. }
  rewrite sumn_swap. apply sumn_ext. intros i Hi.
  rewrite (sumn_ext n _ (fun j => if Nat.eqb j (h i) then w i * f (h i) else 0)).
  - symmetry. apply (sumn_delta n (h i) (fun _ => w i * f (h i))). apply H. exact Hi.
  - intros j _. rewrite Nat.eqb_sym. destruct (Nat.eqb_spec j (h i)) as [->|N]; ring.
Qed.

Section Population.
Variables (h : nat -> nat) (m m' : micro_market) (s : shape).
Hypothesis H : same_population h m m'.
Lemma population_probability i x : (i < m_I m')%nat -> probability (m_J m') (m_same m') (m_p m' i) x = probability (m_J m) (m_same m) (m_p m (h i)) x.
Proof.
  intros Hi. rewrite (sp_products h m m' H). rewrite (probability_same (m_J m) (m_same m') (m_same m)) by apply (sp_groups h m m' H).
  apply probability_p. intros j. apply (sp_probabilities h m m' H). exact Hi.
Qed.
Lemma population_nonneg i : (i < m_I m)%nat -> 0 <= m_agent_weight m i.
Proof.
  intros Hi. rewrite (sp_weights h m m' H i Hi). apply sumn_nonneg. intros k Hk. destruct (Nat.eqb (h k) i); [apply (sp_nonneg h m m' H k Hk)|lra].
Qed.
Lemma population_integral (f g : nat -> cell -> R) :
  (forall i x, (i < m_I m')%nat -> g i x = f (h i) x) ->
  integral s (m_J m') (m_I m') (fun i x => m_agent_weight m' i * g i x) = integral s (m_J m) (m_I m) (fun i x => m_agent_weight m i * f i x).
Proof.
  intros E. unfold integral. rewrite (sp_products h m m' H).
  rewrite (sumn_ext (m_I m') _ (fun i => m_agent_weight m' i * sum_over (cells s (m_J m)) (f (h i)))).
  2: { intros i Hi. rewrite so_scal. f_equal. apply so_ext. intros x _. apply E. exact Hi. }
  rewrite (sumn_fibre (m_I m) (m_I m') h (m_agent_weight m') (fun i => sum_over (cells s (m_J m)) (f i)) (sp_copy h m m' H)).
  apply sumn_ext. intros i Hi. rewrite so_scal, (sp_weights h m m' H i Hi). reflexivity.
Qed.
Definition raw (m : micro_market) (i : nat) (x : cell) : R := truncate (m_weight m i x * probability (m_J m) (m_same m) (m_p m i) x).
Lemma weight_raw (n : micro_market) i x : 0 <= m_agent_weight n i -> dataset_weight n i x = m_agent_weight n i * raw n i x.
Proof.
  intros Hw. unfold dataset_weight, raw. rewrite <- truncate_scal by exact Hw. f_equal. ring.
Qed.
Lemma population_raw i x : (i < m_I m')%nat -> raw m' i x = raw m (h i) x.
Proof. intros Hi. unfold raw. rewrite population_probability by exact Hi. rewrite (sp_survey h m m' H i x Hi). reflexivity. Qed.
Lemma population_weighted (f : nat -> cell -> R) (g : nat -> cell -> R) : (forall i x, (i < m_I m')%nat -> g i x = f (h i) x) ->
  integral s (m_J m') (m_I m') (fun i x => dataset_weight m' i x * g i x) = integral s (m_J m) (m_I m) (fun i x => dataset_weight m i x * f i x).
Proof.
  intros E. rewrite (integral_ext s (m_J m') (m_I m') _ (fun i x => m_agent_weight m' i * (raw m' i x * g i x))).
  2: { intros i x Hi _. rewrite weight_raw by apply (sp_nonneg h m m' H i Hi). ring. }
  rewrite (integral_ext s (m_J m) (m_I m) _ (fun i x => m_agent_weight m i * (raw m i x * f i x))).
  2: { intros i x Hi _. rewrite weight_raw by (apply population_nonneg; exact Hi). ring. }
  apply (population_integral (fun i x => raw m i x * f i x)). intros i x Hi. rewrite population_raw, E by exact Hi. reflexivity.
Qed.
Lemma population_tangents (f g : nat -> cell -> R) : (forall i x, (i < m_I m')%nat -> g i x = f (h i) x) ->
  integral s (m_J m') (m_I m') (fun i x => weight_tangent m' i x * g i x) = integral s (m_J m) (m_I m) (fun i x => weight_tangent m i x * f i x).
Proof.
  intros E.
  rewrite (integral_ext s (m_J m') (m_I m') _ (fun i x => m_agent_weight m' i * (m_weight m' i x * tangent (m_J m') (m_same m') (m_p m' i) (m_dp m' i) x * g i x))).
  2: { intros i x _ _. unfold weight_tangent. ring. }
  rewrite (integral_ext s (m_J m) (m_I m) _ (fun i x => m_agent_weight m i * (m_weight m i x * tangent (m_J m) (m_same m) (m_p m i) (m_dp m i) x * f i x))).
  2: { intros i x _ _. unfold weight_tangent. ring. }
  apply (population_integral (fun i x => m_weight m i x * tangent (m_J m) (m_same m) (m_p m i) (m_dp m i) x * f i x)).
  intros i x Hi. rewrite (sp_survey h m m' H i x Hi), (E i x Hi). f_equal. f_equal.
  rewrite (sp_products h m m' H). rewrite (tangent_same (m_J m) (m_same m') (m_same m)) by apply (sp_groups h m m' H).
  apply tangent_p; intros j; [apply (sp_probabilities h m m' H)|apply (sp_tangents h m m' H)]; exact Hi.
Qed.
End Population.

Lemma so_forall2 {A B} (P : A -> B -> Prop) l l' f g : Forall2 P l l' -> (forall x y, P x y -> f x = g y) -> sum_over l f = sum_over l' g.
Proof. intros F H. induction F as [|x y l l' Hxy F IH]; cbn; [reflexivity|]. rewrite (H x y Hxy), IH. reflexivity. Qed.

Lemma populations_denominator chunks chunks' ms ms' : same_populations ms ms' -> denominator chunks' ms' = denominator chunks ms.
Proof.
  intros F. rewrite !denominator_integral. symmetry. apply (so_forall2 _ _ _ _ _ F). intros d d' [E [h H]]. rewrite E.
  transitivity (integral (fst d) (m_J (snd d)) (m_I (snd d)) (fun i x => dataset_weight (snd d) i x * 1)).
  { apply integral_ext. intros; ring. }
  rewrite <- (population_weighted h (snd d) (snd d') (fst d) H (fun _ _ => 1) (fun _ _ => 1)) by reflexivity. apply integral_ext. intros; ring.
Qed.
Lemma populations_numerator chunks chunks' ms ms' part : same_populations ms ms' -> numerator chunks' ms' part = numerator chunks ms part.
Proof.
  intros F. rewrite !numerator_integral. symmetry. apply (so_forall2 _ _ _ _ _ F). intros d d' [E [h H]]. rewrite E. symmetry.
  apply (population_weighted h (snd d) (snd d') (fst d) H (m_value (snd d) part) (m_value (snd d') part)).
  intros i x Hi. apply (sp_values h _ _ H). exact Hi.
Qed.
Lemma populations_second chunks chunks' ms ms' p q : same_populations ms ms' -> second_moment chunks' ms' p q = second_moment chunks ms p q.
Proof.
  intros F. rewrite !second_integral. symmetry. apply (so_forall2 _ _ _ _ _ F). intros d d' [E [h H]]. rewrite E. symmetry.
  rewrite (integral_ext _ _ _ _ (fun i x => dataset_weight (snd d') i x * (m_value (snd d') p i x * m_value (snd d') q i x))) by (intros; ring).
  rewrite (integral_ext _ (m_J (snd d)) _ _ (fun i x => dataset_weight (snd d) i x * (m_value (snd d) p i x * m_value (snd d) q i x))) by (intros; ring).
  apply (population_weighted h (snd d) (snd d') (fst d) H (fun i x => m_value (snd d) p i x * m_value (snd d) q i x)
           (fun i x => m_value (snd d') p i x * m_value (snd d') q i x)).
  intros i x Hi. rewrite !(sp_values h _ _ H _ i x Hi). reflexivity.
Qed.
Lemma populations_value chunks chunks' ms ms' part : same_populations ms ms' -> part_value chunks' ms' part = part_value chunks ms part.
Proof. intros F. unfold part_value. rewrite (populations_numerator chunks chunks' ms ms' part F), (populations_denominator chunks chunks' ms ms' F). reflexivity. Qed.
Lemma populations_covariance chunks chunks' ms ms' n p q : same_populations ms ms' -> part_covariance chunks' ms' n p q = part_covariance chunks ms n p q.
Proof.
  intros F. unfold part_covariance. fold (second_moment chunks' ms' p q). fold (second_moment chunks ms p q).
  rewrite !(populations_value chunks chunks' ms ms' _ F), (populations_second chunks chunks' ms ms' p q F), (populations_denominator chunks chunks' ms ms' F). reflexivity.
Qed.
Lemma populations_numerator_jacobian chunks chunks' ms ms' part : same_populations ms ms' -> numerator_jacobian chunks' ms' part = numerator_jacobian chunks ms part.
Proof.
  intros F. rewrite !numerator_jacobian_integral. symmetry. apply (so_forall2 _ _ _ _ _ F). intros d d' [E [h H]]. rewrite E. symmetry.
  apply (population_tangents h (snd d) (snd d') (fst d) H (m_value (snd d) part) (m_value (snd d') part)).
  intros i x Hi. apply (sp_values h _ _ H). exact Hi.
Qed.

(** Whether weights are the same for all agents. *)
Lemma constant_iff s m I : (0 < I)%nat -> constant_denominator s m (seq 0 I) = true <->
  (forall i k x, (i < I)%nat -> (k < I)%nat -> In x (cells s (m_J m)) -> m_weight m i x = m_weight m k x) /\
  match s with Two _ => True | Three o1 o2 => o2 = true /\ forall i a b, (i < I)%nat -> In (Pair a b) (cells s (m_J m)) -> m_weight m i (Pair a b) = m_weight m i (Pair a None) end.
Proof.
  intros HI. destruct I as [|I]; [lia|]. unfold constant_denominator. cbn [seq]. rewrite andb_true_iff, forallb_forall. assert (CL : forall A B C D : Prop, (A <-> C) -> (B <-> D) -> (A /\ B <-> C /\ D)) by tauto. apply CL; clear CL.
  - split.
    + intros H i k x Hi Hk Hx.
      assert (K : forall l, (l < S I)%nat -> m_weight m l x = m_weight m 0 x).
      { intros l Hl. assert (J1 : In l (0 :: seq 1 I)%nat) by (change (0 :: seq 1 I)%nat with (seq 0 (S I)); apply in_seq; lia).
        specialize (H l J1). rewrite forallb_forall in H. apply reqb_spec. apply H. exact Hx. }
      rewrite (K i Hi), (K k Hk). reflexivity.
    + intros H i Hi. apply forallb_forall. intros x Hx. apply reqb_spec. change (0 :: seq 1 I)%nat with (seq 0 (S I)) in Hi. apply in_seq in Hi. apply H; [lia|lia|exact Hx].
  - destruct s as [o|o1 o2]; [split; auto|]. rewrite andb_true_iff, forallb_forall. apply and_iff_compat_l. split.
    + intros H i a b Hi Hx. assert (J1 : In i (0 :: seq 1 I)%nat) by (change (0 :: seq 1 I)%nat with (seq 0 (S I)); apply in_seq; lia).
      specialize (H i J1). rewrite forallb_forall in H. apply reqb_spec. exact (H (Pair a b) Hx).
    + intros H i Hi. apply forallb_forall. intros [a|a b] Hx; [reflexivity|]. apply reqb_spec. change (0 :: seq 1 I)%nat with (seq 0 (S I)) in Hi. apply in_seq in Hi. apply H; [lia|exact Hx].
Qed.

Lemma agents_constant h m m' s : same_population h m m' -> (forall i, (i < m_I m)%nat -> exists k, (k < m_I m')%nat /\ h k = i) ->
  constant_denominator s m' (seq 0 (m_I m')) = constant_denominator s m (seq 0 (m_I m)).
Proof.
  intros H O. destruct (m_I m) as [|I] eqn:EI.
  { destruct (m_I m') as [|I'] eqn:EI'; [reflexivity|]. exfalso. assert (C := sp_copy h m m' H 0%nat). lia. }
  rewrite <- EI in *. assert (HI : (0 < m_I m)%nat) by lia.
  assert (HI' : (0 < m_I m')%nat). { destruct (O 0%nat) as [k [Hk _]]; lia. }
  apply eq_true_iff_eq. rewrite (constant_iff s m (m_I m) HI), (constant_iff s m' (m_I m') HI'). rewrite (sp_products h m m' H). split.
  - intros [A B]. split.
    + intros i k x Hi Hk Hx. destruct (O i Hi) as [i' [Hi' <-]]. destruct (O k Hk) as [k' [Hk' <-]].
      rewrite <- (sp_survey h m m' H i' x Hi'), <- (sp_survey h m m' H k' x Hk'). apply A; assumption.
    + destruct s as [o|o1 o2]; [exact B|]. destruct B as [B1 B2]. split; [exact B1|]. intros i a b Hi Hx. destruct (O i Hi) as [i' [Hi' <-]].
      rewrite <- !(sp_survey h m m' H i' _ Hi'). apply B2; assumption.
  - intros [A B]. split.
    + intros i k x Hi Hk Hx. rewrite (sp_survey h m m' H i x Hi), (sp_survey h m m' H k x Hk). apply A; [apply (sp_copy h m m' H); assumption|apply (sp_copy h m m' H); assumption|exact Hx].
    + destruct s as [o|o1 o2]; [exact B|]. destruct B as [B1 B2]. split; [exact B1|]. intros i a b Hi Hx. rewrite !(sp_survey h m m' H i _ Hi). apply B2; [apply (sp_copy h m m' H); exact Hi|exact Hx].
Qed.

Lemma agents_populations ms ms' : same_agents ms ms' -> same_populations ms ms'.
Proof. intros F. induction F as [|d d' l l' [E [h [H _]]] F IH]; constructor; [|exact IH]. split; [exact E|exists h; exact H]. Qed.
Lemma agents_denominator_jacobian ms ms' : same_agents ms ms' -> denominator_jacobian 1 ms' = denominator_jacobian 1 ms.
Proof.
  intros F. unfold denominator_jacobian. symmetry. apply (so_forall2 _ _ _ _ _ F). intros d d' [E [h [H O]]]. rewrite E.
  unfold part_denominator_jacobian, micro_chunks. cbn [Nat.ltb Nat.leb sum_over]. f_equal. unfold denominator_tangent.
  rewrite (agents_constant h (snd d) (snd d') (fst d) H O). destruct (constant_denominator (fst d) (snd d) (seq 0 (m_I (snd d)))); [reflexivity|].
  unfold chunk_sum. rewrite !so_seq.
  change (integral (fst d) (m_J (snd d)) (m_I (snd d)) (weight_tangent (snd d)) = integral (fst d) (m_J (snd d')) (m_I (snd d')) (weight_tangent (snd d'))).
  transitivity (integral (fst d) (m_J (snd d)) (m_I (snd d)) (fun i x => weight_tangent (snd d) i x * 1)); [apply integral_ext; intros; ring|].
  rewrite <- (population_tangents h (snd d) (snd d') (fst d) H (fun _ _ => 1) (fun _ _ => 1)) by reflexivity. apply integral_ext. intros; ring.
Qed.
Lemma agents_jacobian ms ms' part : same_agents ms ms' -> part_jacobian 1 ms' part = part_jacobian 1 ms part.
Proof.
  intros F. assert (P := agents_populations ms ms' F). unfold part_jacobian.
  rewrite (populations_numerator_jacobian 1 1 ms ms' part P), (populations_value 1 1 ms ms' part P), (agents_denominator_jacobian ms ms' F), (populations_denominator 1 1 ms ms' P). reflexivity.
Qed.

(** Markets that are not surveyed. *)
Lemma unsurveyed_zero d f : not_surveyed d -> integral (fst d) (m_J (snd d)) (m_I (snd d)) (fun i x => dataset_weight (snd d) i x * f i x) = 0.
Proof.
  intros Z. unfold integral. rewrite <- so_seq. apply so_zero. intros i Hi. apply in_seq in Hi. assert (Hi' : (i < m_I (snd d))%nat) by lia. apply so_zero. intros x Hx. rewrite weight_unsurveyed by (apply Z; [exact Hi'|exact Hx]). ring.
Qed.
Lemma unsurveyed_tangent d f : not_surveyed d -> integral (fst d) (m_J (snd d)) (m_I (snd d)) (fun i x => weight_tangent (snd d) i x * f i x) = 0.
Proof.
  intros Z. unfold integral. rewrite <- so_seq. apply so_zero. intros i Hi. apply in_seq in Hi. assert (Hi' : (i < m_I (snd d))%nat) by lia. apply so_zero. intros x Hx. unfold weight_tangent. rewrite (Z i x Hi' Hx). ring.
Qed.
Lemma unsurveyed chunks d ms part q n : not_surveyed d ->
  part_value chunks (d :: ms) part = part_value chunks ms part /\ part_covariance chunks (d :: ms) n part q = part_covariance chunks ms n part q /\
  part_jacobian chunks (d :: ms) part = part_jacobian chunks ms part.
Proof.
  intros Z.
  assert (N : forall p, numerator chunks (d :: ms) p = numerator chunks ms p).
  { intros p. rewrite !numerator_integral. cbn [sum_over]. rewrite (unsurveyed_zero d (m_value (snd d) p) Z). ring. }
  assert (D : denominator chunks (d :: ms) = denominator chunks ms).
  { rewrite !denominator_integral. cbn [sum_over]. rewrite (integral_ext (fst d) _ _ _ (fun i x => dataset_weight (snd d) i x * 1)) by (intros; ring).
    rewrite (unsurveyed_zero d (fun _ _ => 1) Z). ring. }
  assert (V : forall p, part_value chunks (d :: ms) p = part_value chunks ms p) by (intros p; unfold part_value; rewrite N, D; reflexivity).
  split; [apply V|]. split.
  - unfold part_covariance. fold (second_moment chunks (d :: ms) part q). fold (second_moment chunks ms part q). rewrite !V, D.
    assert (T : second_moment chunks (d :: ms) part q = second_moment chunks ms part q).
    { rewrite !second_integral. cbn [sum_over]. rewrite (integral_ext (fst d) _ _ _ (fun i x => dataset_weight (snd d) i x * (m_value (snd d) part i x * m_value (snd d) q i x))) by (intros; ring).
      rewrite (unsurveyed_zero d (fun i x => m_value (snd d) part i x * m_value (snd d) q i x) Z). ring. }
    rewrite T. reflexivity.
  - unfold part_jacobian. rewrite V, D.
    assert (NJ : numerator_jacobian chunks (d :: ms) part = numerator_jacobian chunks ms part).
    { rewrite !numerator_jacobian_integral. cbn [sum_over]. rewrite (unsurveyed_tangent d (m_value (snd d) part) Z). ring. }
    assert (DJ : denominator_jacobian chunks (d :: ms) = denominator_jacobian chunks ms).
    { unfold denominator_jacobian. cbn [sum_over]. assert (E : part_denominator_jacobian (fst d) (snd d) chunks = 0); [|rewrite E; ring].
      unfold part_denominator_jacobian. apply so_zero. intros c Hc. unfold denominator_tangent. destruct (constant_denominator (fst d) (snd d) c); [reflexivity|].
      unfold chunk_sum. apply so_zero. intros i Hi. apply so_zero. intros x Hx. unfold weight_tangent. rewrite (Z i x (chunk_in _ _ _ _ Hc Hi) Hx). ring. }
    rewrite NJ, DJ. reflexivity.
Qed.
