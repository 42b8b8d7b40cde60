(** Properties of simulated micro data, of lists of micro moments, and of agent scores. *)
From Coq Require Import Sorting.Permutation.
From Coq Require Import Reals Lra Lia List Bool Arith ZArith String.
From Verif Require Import Base MicroModel MicroSpec NestModel NestSpec DrawModel DrawSpec.
From Verif Require DemandDeriv DrawProofs.
Import ListNotations.
Local Open Scope R_scope.

(** ** C95: simulated micro data are draws from the model *)

Theorem C95_law : forall order, NoDup (map market_of order) -> total_mass order <> 0 ->
  exists lo hi, drawn_from order lo hi.
Proof. exact DrawProofs.law. Qed.
Print Assumptions C95_law.

(** There are no data exactly when no choice has mass. *)
Theorem C95_rejects : forall order N u, simulate_micro_data order N u = None <-> total_mass order = 0.
Proof. exact DrawProofs.rejects. Qed.
Print Assumptions C95_rejects.

(** The mean of any values over simulated data is what [compute_micro_values] reports. *)
Theorem C95_mean : forall order lo hi, drawn_from order lo hi ->
  sum_over order (fun d => let '(t, s, _) := d in survey_sum s (fun i c => (hi t i c - lo t i c) * s_value s i c))
  = surveys_part (map (fun d => (snd (fst d), snd d)) order).
Proof. exact DrawProofs.law_mean. Qed.
Print Assumptions C95_mean.

Example C95_applies :
  let order := map (fun t => (t, fst (DrawProofs.lone_economy t), snd (DrawProofs.lone_economy t))) [7; 3]%Z in
  NoDup (map market_of order) /\ total_mass order = 1.
Proof.
  intro order. split.
  - cbn. repeat constructor; cbn; intuition discriminate.
  - unfold order. rewrite DrawProofs.lone_total. cbn. field.
Qed.

(** ** C96: the same seed gives the same data *)

(** Markets of a dataset are kept in a set, so they have no order of their own: with the same uniform draws, two
    orders of iteration give different data. *)
Theorem C96_same_seed_refuted : exists economy product_market_ids market_ids iterate iterate2 N u,
  Permutation market_ids (iterate market_ids) /\ Permutation market_ids (iterate2 market_ids) /\
  (forall n, 0 <= u n < 1) /\
  simulated economy (market_order iterate product_market_ids (Some market_ids)) N u
  <> simulated economy (market_order iterate2 product_market_ids (Some market_ids)) N u.
Proof.
  exists DrawProofs.lone_economy, [0; 1]%Z, [0; 1]%Z, (fun l => l), (@rev Z), 1%nat, (fun _ => 0).
  split; [apply Permutation_refl|]. split; [apply Permutation_rev|]. split; [intro; lra|].
  cbn [market_order rev app]. rewrite !DrawProofs.lone_first. discriminate.
Qed.
Print Assumptions C96_same_seed_refuted.

(** Without [market_ids], the order depends only on which markets there are. *)
Theorem C96_all_markets : forall economy iterate iterate2 ids ids2 N u,
  (forall t, In t ids <-> In t ids2) ->
  simulated economy (market_order iterate ids None) N u = simulated economy (market_order iterate2 ids2 None) N u.
Proof. intros economy iterate iterate2 ids ids2 N u H. rewrite (DrawProofs.default_order iterate iterate2 ids ids2 H). reflexivity. Qed.
Print Assumptions C96_all_markets.

(** With them, only the intervals move: each choice is as likely in any order. *)
Theorem C96_any_order : forall order order2 lo hi lo2 hi2,
  Permutation order order2 -> drawn_from order lo hi -> drawn_from order2 lo2 hi2 ->
  forall d i c, In d order -> within d i c ->
  hi (market_of d) i c - lo (market_of d) i c = hi2 (market_of d) i c - lo2 (market_of d) i c.
Proof. exact DrawProofs.law_permuted. Qed.
Print Assumptions C96_any_order.

Example C96_applies :
  (forall t, In t [2; 1; 2]%Z <-> In t [1; 2]%Z) /\
  simulated DrawProofs.lone_economy (market_order (fun l => l) [2; 1; 2]%Z None) 1 (fun _ => 0) = Some [mk_drawn 0 1 0 0 None].
Proof.
  split; [intro t; cbn; tauto|]. change (market_order (fun l => l) [2; 1; 2]%Z None) with [1; 2]%Z. apply DrawProofs.lone_first.
Qed.

(** ** C97: micro moments are told apart by name, and are evaluated at their own parts *)

Theorem C97_accepts : forall moments, identified moments ->
  ((exists parts, register moments = inr parts) <-> told_apart moments).
Proof. exact DrawProofs.register_accepts. Qed.
Print Assumptions C97_accepts.

Theorem C97_evaluates : forall moments parts values m, identified moments ->
  register moments = inr parts -> In m moments ->
  moment_value parts (map values parts) m = mm_value m (map values (mm_parts m)).
Proof. intros moments parts values m I. exact (DrawProofs.evaluates moments I parts values m). Qed.
Print Assumptions C97_evaluates.

(** Each part is computed once. *)
Theorem C97_parts : forall moments parts, identified moments -> register moments = inr parts ->
  NoDup (map p_id parts) /\ forall p, In p parts <-> used moments p.
Proof.
  intros moments parts I E. rewrite (DrawProofs.register_parts moments parts E). exact (DrawProofs.parts_spec moments I).
Qed.
Print Assumptions C97_parts.

(** A moment by itself. *)
Theorem C97_moment : forall m, check_moment m = None <->
  distinct p_id (mm_parts m) /\ distinct p_name (mm_parts m) /\
  forall p p2, In p (mm_parts m) -> In p2 (mm_parts m) ->
    ds_name (p_dataset p) = ds_name (p_dataset p2) -> ds_id (p_dataset p) = ds_id (p_dataset p2).
Proof. exact DrawProofs.check_moment_spec. Qed.
Print Assumptions C97_moment.

(** Defaults for one part belong together. *)
Theorem C97_default : gradient_of 1 default_compute_value default_compute_gradient.
Proof. exact DrawProofs.default_gradient. Qed.
Print Assumptions C97_default.

Example C97_applies :
  let d := mk_data_set 0 "survey" in
  let p := mk_part 0 "mean" d in let q := mk_part 1 "size" d in
  let ratio := mk_moment 0 "ratio" [q; p] (fun v => nth 0 v 0 / nth 1 v 0) in
  let mean := mk_moment 1 "mean" [p] (fun v => nth 0 v 0) in
  identified [mean; ratio] /\ register [mean; ratio] = inr [p; q] /\
  moment_value [p; q] [2; 6] ratio = 3 /\
  register [mean; mk_moment 2 "other" [mk_part 2 "size" (mk_data_set 1 "survey")] (fun _ => 0)] = inl DatasetsShareName.
Proof.
  intros d p q ratio mean. split; [|split; [reflexivity|split; [cbn; field|reflexivity]]].
  constructor; intros m m2 x y [<-|[<-|[]]] [<-|[<-|[]]]; cbn; intuition (subst; cbn in *; congruence).
Qed.

(** ** C98: choice indices of micro data *)

(** Indices below zero are not between zero and the number of options, but are accepted, and count from the end. *)
Theorem C98_negative_refuted : exists (columns : list nat) j,
  (j < 0)%Z /\ take_column columns j = Some 30%nat.
Proof. exists [10; 20; 30]%nat, (-1)%Z. split; [lia|reflexivity]. Qed.
Print Assumptions C98_negative_refuted.

Theorem C98_accepted : forall A (columns : list A) j,
  take_column columns j <> None <-> (- Z.of_nat (List.length columns) <= j < Z.of_nat (List.length columns))%Z.
Proof. exact @DrawProofs.take_column_range. Qed.
Print Assumptions C98_accepted.

Theorem C98_nonnegative : forall A (columns : list A) j, (0 <= j)%Z -> take_column columns j = nth_error columns (Z.to_nat j).
Proof. exact @DrawProofs.take_column_nonneg. Qed.
Print Assumptions C98_nonnegative.

(** Rows of simulated data select the choices that they describe. *)
Theorem C98_simulated : forall A t s q i o a r (column : option nat -> A),
  s_shape s = Two o -> describes (t, s, q) i (Single a) r ->
  take_column (map column (options_of o (s_J s))) (Z.of_nat (d_choice r)) = Some (column a).
Proof.
  intros A t s q i o a r column Es (_ & _ & H). rewrite Es in H. destruct H as [H _].
  rewrite DrawProofs.take_column_nonneg by lia. rewrite Nat2Z.id. apply map_nth_error, H.
Qed.
Print Assumptions C98_simulated.

Theorem C98_simulated_second : forall A t s q i o1 o2 a b r (column : option nat -> option nat -> A),
  s_shape s = Three o1 o2 -> describes (t, s, q) i (Pair a b) r ->
  exists k columns, d_second r = Some k /\
  take_column (map (fun a => map (column a) (options_of o2 (s_J s))) (options_of o1 (s_J s))) (Z.of_nat (d_choice r)) = Some columns /\
  take_column columns (Z.of_nat k) = Some (column a b).
Proof.
  intros A t s q i o1 o2 a b r column Es (_ & _ & H). rewrite Es in H. destruct H as (H & k & Ek & H2).
  exists k, (map (column a) (options_of o2 (s_J s))). split; [exact Ek|]. rewrite !DrawProofs.take_column_nonneg, !Nat2Z.id by lia. split.
  - exact (map_nth_error (fun a => map (column a) (options_of o2 (s_J s))) _ _ H).
  - apply map_nth_error, H2.
Qed.
Print Assumptions C98_simulated_second.

Example C98_applies :
  describes (5%Z, mk_survey (Three true true) 2 1 (fun _ => 1) (fun _ _ => 1) (fun _ _ => 0), fun _ _ => / 9) 0
    (Pair (Some 1%nat) None) (mk_drawn 4 5 0 2 (Some 0%nat)).
Proof. repeat split. exists 0%nat. split; reflexivity. Qed.

(** ** C99: agent scores *)

(** A micro moment part whose values are scores is zero at the parameters at which scores are computed.  Values of
    choices without a score do not matter. *)
Theorem C99_mean_zero : forall t t2 ds,
  let first := first_family ds t in
  (forall s qp dq qp2 dq2, In (s, qp, dq, qp2, dq2) ds ->
    smooth_cells t s qp dq /\ smooth_cells t2 s qp2 dq2 /\ qp t = qp2 t2 /\ valued_by_scores first s (qp t) dq) ->
  score_denominator first <> 0 ->
  surveys_part (map fst first) = 0.
Proof. intros t t2 ds first S D. exact (DrawProofs.score_part_zero t t2 ds S D). Qed.
Print Assumptions C99_mean_zero.

(** Its derivative with respect to another parameter is the mean of products of scores. *)
Theorem C99_information : forall t t2 ds,
  let first := first_family ds t in
  let second := second_family ds t2 in
  (forall s qp dq qp2 dq2, In (s, qp, dq, qp2, dq2) ds ->
    smooth_cells t s qp dq /\ smooth_cells t2 s qp2 dq2 /\ qp t = qp2 t2 /\ valued_by_scores first s (qp t) dq) ->
  score_denominator first <> 0 ->
  derivable_pt_lim (fun x => surveys_part (map (fun d => let '(s, _, _, qp2, _) := d in (s, qp2 x)) ds)) t2
    (information first second (both_families ds t)) /\
  surveys_part_jacobian second = information first second (both_families ds t).
Proof.
  intros t t2 ds first second S D. split; [exact (DrawProofs.score_part_moves t t2 ds S D)|exact (DrawProofs.score_jacobian t t2 ds S D)].
Qed.
Print Assumptions C99_information.

(** A score is the slope of the log of the probability that the dataset has such an observation. *)
Theorem C99_log_likelihood : forall t l s qp dq i c x,
  (forall d, In d l -> smooth_cells t (fst (fst d)) (snd (fst d)) (snd d)) ->
  In (s, qp, dq) l -> (i < s_I s)%nat -> In c (cells (s_shape s) (s_J s)) ->
  let at_y := fun y => map (fun d => (fst (fst d), snd (fst d) y, snd d)) l in
  0 < score_denominator (at_y t) ->
  agent_score (at_y t) s (qp t) dq i c = Some x ->
  derivable_pt_lim (fun y => ln (s_weight s i c * qp y i c) - ln (score_denominator (at_y y))) t x.
Proof. exact DrawProofs.score_log. Qed.
Print Assumptions C99_log_likelihood.

(** Two agents with different survey weights; one becomes more likely to choose the product, the other less. *)
Example C99_applies :
  let sign := fun i => match i with O => 1 | _ => - 1 end in
  let s := mk_survey (Two false) 1 2 (fun _ => / 2) (fun i _ => match i with O => 1 | _ => 2 end)
             (fun i _ => match i with O => 8 / 3 | _ => - (4 / 3) end) in
  let half := fun (a : option nat) => match a with Some _ => 1 | None => - 1 end in
  let on := fun c => match c with Single a => half a | Pair a None => half a | Pair _ (Some _) => 0 end in
  let base := fun c => match c with Pair _ (Some _) => 0 | _ => / 2 end in
  let qp := fun y i c => base c + sign i * on c * y in
  let dq := fun i c => sign i * on c in
  let ds := [(s, qp, dq, qp, dq)] in
  smooth_cells 0 s qp dq /\ score_denominator (first_family ds 0) = 3 / 4 /\
  valued_by_scores (first_family ds 0) s (qp 0) dq /\
  agent_score (first_family ds 0) s (qp 0) dq 0 (Single (Some 0%nat)) = Some (8 / 3).
Proof.
  intros sign s half on base qp dq ds.
  assert (D : score_denominator (first_family ds 0) = 3 / 4).
  { unfold score_denominator, first_family, ds, survey_denominator, survey_sum, survey_weight, qp. cbn. rewrite !DrawProofs.truncate_max, !Rmax_right by lra. field. }
  assert (DJ : score_denominator_jacobian (first_family ds 0) = - / 2).
  { unfold score_denominator_jacobian, first_family, ds. cbn [map sum_over fst snd]. unfold survey_denominator_jacobian.
    assert (C : survey_constant s = false).
    { unfold survey_constant. cbn. unfold reqb. destruct (Req_EM_T 1 1) as [_|N]; [|lra]. destruct (Req_EM_T 2 1) as [E|_]; [lra|]. reflexivity. }
    rewrite C. unfold survey_sum, dq. cbn [s s_I s_J s_shape s_weight s_agent_weight sumn cells options_of app map seq sum_over sign on half]. field. }
  assert (A : forall i, (i < 2)%nat -> agent_score (first_family ds 0) s (qp 0) dq i (Single (Some 0%nat)) = Some (s_value s i (Single (Some 0%nat)))).
  { intros [|[|i]] Hi; [| |lia]; unfold agent_score; cbv zeta; rewrite D, DJ; unfold qp, dq; cbn [s_weight s s_value sign on half base];
      rewrite DrawProofs.truncate_max, Rmax_right by lra;
      match goal with |- context [Req_EM_T ?x 0] => destruct (Req_EM_T x 0) as [E|_]; [lra|] end; f_equal; field. }
  split; [|split; [exact D|split; [|apply (A O); lia]]].
  - constructor.
    + intros i _. cbn. lra.
    + intros [|i] c; cbn; lra.
    + exists (/ 4). split; [lra|]. intros x Hx i Hi. rewrite Rminus_0_r in Hx. apply Rabs_def2 in Hx. split.
      * intros [[j|]|[j|] [k|]] _; unfold qp; destruct i as [|i]; cbn; lra.
      * intros [j|] _; unfold qp; destruct i as [|i]; cbn; lra.
    + intros i c _ _. unfold qp, dq. eapply DemandDeriv.dlim_eq; [|apply (DemandDeriv.dlim_plus (fun _ => base c) (fun y => sign i * on c * y)); [apply DemandDeriv.dlim_const|]].
      2:{ apply (DemandDeriv.dlim_scal (sign i * on c) (fun y => y)), DemandDeriv.dlim_id. }
      ring.
    + intros [j|] _; unfold dq; cbn; field.
  - intros i c x Hi Hc E. cbn in Hc. destruct Hc as [<-|[]]. rewrite (A i Hi) in E. injection E as <-. reflexivity.
Qed.
