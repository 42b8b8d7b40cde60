(** Theorems about objective evaluations, the GMM gradient and the projected gradient.  Each is closed by a lemma
    proved elsewhere. *)
From Coq Require Import Reals Lra Lia List Bool Arith.
From Verif Require Import Base FltModel DemandDeriv ProgressModel ProgressSpec ProgressProofs.
Import ListNotations.

(** A computation for examples: with theta = 1 the objective cannot be computed, with theta = 2 one element of
    delta, with theta = 3 one element of the Jacobian of xi. *)
Definition example_computation : computation nat := {|
  supply := true; micro_moments := true; random_coefficients := true;
  logit_delta := fun _ => [Num 0; Num 0];
  fixed_point := fun theta d => if theta =? 2 then ([NaN; Num 1], [OtherError 0]) else ([Num 2; Num 1], []);
  micro_values := fun _ _ => ([Num 3], []);
  xi_by_theta := fun theta _ => if theta =? 3 then ([Num 1; PInf], [OtherError 1]) else ([Num 1; Num 1], []);
  micro_by_theta := fun _ _ => ([Num 1], []);
  costs := fun _ _ => ([Num 5; Num 6], []);
  omega_by_theta := fun _ _ _ => ([Num 1; Num 2], []);
  gmm_objective := fun theta _ _ _ => (if theta =? 1 then NaN else Num 7, []);
  gmm_gradient := fun _ _ _ _ jx _ _ => [nth 0 jx NaN]
|}.
Definition example_configuration b s := {| on_error := b; punishment := Num 2; starting := s |}.
Definition example_initial : progress := {|
  objective := 0; gradient := [Num 0]; next_delta := [Num 0; Num 0]; delta := [Num 0; Num 0]; tilde_costs := [Num 0; Num 0];
  micro := [Num 0]; xi_jacobian := [Num 0; Num 0]; omega_jacobian := [Num 0; Num 0]; micro_jacobian := [Num 0]; errors := [] |}.
Definition example_heap : heap := [Num 100].
Definition example_shapes : shapes :=
  {| n_delta := 2; n_micro := 1; n_costs := 2; n_xi := 2; n_micro_jacobian := 1; n_omega := 2; n_theta := 1 |}.

Example example_meets :
  computes_shapes example_computation example_shapes /\ has_shapes example_initial example_shapes /\
  only_other example_computation /\ finite_quantities example_initial /\
  finite_derivatives example_computation example_initial /\ objective example_initial < length example_heap /\
  finite (cell example_heap (objective example_initial)) /\ finite (punishment (example_configuration Revert First)).
Proof.
  unfold computes_shapes, only_other. cbn.
  assert (F : forall l : list R, all_finite (map Num l)) by (intros l x H; apply in_map_iff in H; destruct H as [r [<- _]]; exists r; reflexivity).
  repeat split; intros; try reflexivity; try (exact (F [0; 0]%R)) || (exact (F [0]%R)) || idtac; try (destruct (theta =? 2); reflexivity);
    try (destruct (theta =? 3); reflexivity); try (apply other_nil); try (cbv; lia); try (eexists; reflexivity).
  - destruct (theta =? 2); intros e He; [destruct He as [<-|[]]; eexists; reflexivity|destruct He].
  - destruct (theta =? 3); intros e He; [destruct He as [<-|[]]; eexists; reflexivity|destruct He].
Qed.

(* ---------- C25: numerical failures ---------- *)

(** Exactly the elements that are not finite are replaced, by their last values. *)
Theorem C25_reverted Theta (c : computation Theta) cfg s h p theta cg h' p' :
  has_shapes p s -> computes_shapes c s -> evaluate c cfg h p theta cg = (h', Some p') ->
  let r := raw_quantities c cfg p theta cg in
  reverted (delta p) (raw_delta r) (delta p') /\
  (micro_moments c = true -> reverted (micro p) (raw_micro r) (micro p')) /\
  (supply c = true -> reverted (tilde_costs p) (raw_costs r) (tilde_costs p')) /\
  (cg = true -> reverted (xi_jacobian p) (raw_xi_jacobian r) (xi_jacobian p')) /\
  (cg = true -> micro_moments c = true -> reverted (micro_jacobian p) (raw_micro_jacobian r) (micro_jacobian p')) /\
  (cg = true -> supply c = true -> reverted (omega_jacobian p) (raw_omega_jacobian r) (omega_jacobian p')).
Proof. apply evaluate_reverts_shapes. Qed.
Print Assumptions C25_reverted.

(** One error for each quantity with such elements, and none for the others. *)
Theorem C25_recorded Theta (c : computation Theta) cfg h p theta cg h' p' :
  only_other c -> evaluate c cfg h p theta cg = (h', Some p') ->
  let r := raw_quantities c cfg p theta cg in
  recorded DeltaReversion (errors p') (raw_delta r) /\
  (micro_moments c = true -> recorded MicroReversion (errors p') (raw_micro r)) /\
  (supply c = true -> recorded CostsReversion (errors p') (raw_costs r)) /\
  (cg = true -> recorded XiJacobianReversion (errors p') (raw_xi_jacobian r)) /\
  (cg = true -> micro_moments c = true -> recorded MicroJacobianReversion (errors p') (raw_micro_jacobian r)) /\
  (cg = true -> supply c = true -> recorded OmegaJacobianReversion (errors p') (raw_omega_jacobian r)) /\
  recorded ObjectiveReversion (errors p') [fst (gmm_objective c theta (delta p') (tilde_costs p') (micro p'))] /\
  (cg = true -> recorded GradientReversion (errors p')
     (gmm_gradient c theta (delta p') (tilde_costs p') (micro p') (xi_jacobian p') (omega_jacobian p') (micro_jacobian p'))).
Proof. apply evaluate_records. Qed.
Print Assumptions C25_recorded.

(** Whatever fails in a history, delta, micro moments and costs stay finite. *)
Theorem C25_finite Theta (c : computation Theta) cfg l h p h' p' :
  after c cfg h p l = Some (h', p') -> finite_quantities p -> finite_quantities p'.
Proof. apply after_finite. Qed.
Print Assumptions C25_finite.

(** So does the objective with a finite punishment. *)
Theorem C25_finite_objective Theta (c : computation Theta) cfg l h p h' p' :
  after c cfg h p l = Some (h', p') -> objective p < length h -> finite (cell h (objective p)) -> finite (punishment cfg) ->
  objective p' < length h' /\ finite (cell h' (objective p')).
Proof. apply after_objective. Qed.
Print Assumptions C25_finite_objective.

(** And so do Jacobians and the gradient if all evaluations of the history compute them. *)
Theorem C25_finite_derivatives Theta (c : computation Theta) cfg l h p h' p' :
  (forall x, In x l -> snd x = true) -> after c cfg h p l = Some (h', p') ->
  finite_derivatives c p -> finite_derivatives c p'.
Proof. apply after_derivatives. Qed.
Print Assumptions C25_finite_derivatives.

(** Not otherwise: an evaluation without a gradient stores NaN, and the next one with a gradient reverts to it. *)
Theorem C25_gradient_free_refuted :
  ~ (forall Theta (c : computation Theta) cfg s l theta h p h' p', computes_shapes c s -> has_shapes p s -> only_other c ->
       finite_quantities p -> finite_derivatives c p -> after c cfg h p (l ++ [(theta, true)]) = Some (h', p') ->
       all_finite (xi_jacobian p')).
Proof.
  intro H. destruct example_meets as (E1 & E2 & E3 & E4 & E5 & _).
  destruct (after example_computation (example_configuration Revert First) example_heap example_initial ([(0, false)] ++ [(3, true)]))
    as [[h' p']|] eqn:A; [|discriminate A].
  assert (F := H _ _ _ _ _ _ _ _ _ _ E1 E2 E3 E4 E5 A). cbn in A. injection A as _ <-. cbn in F.
  destruct (F NaN (or_intror (or_introl eq_refl))) as [x X]. discriminate X.
Qed.
Print Assumptions C25_gradient_free_refuted.

Example C25_applies :
  exists h' p', after example_computation (example_configuration Revert First) example_heap example_initial [(0, true); (2, true); (3, true)]
    = Some (h', p') /\ delta p' = [Num 2; Num 1] /\ xi_jacobian p' = [Num 1; Num 1] /\
  exists h'' p'', evaluate example_computation (example_configuration Revert First) h' p' 2 true = (h'', Some p'') /\
    errors p'' = [OtherError 0; DeltaReversion].
Proof. eexists. eexists. split; [lazy -[IZR Rmult Rplus]; reflexivity|]. repeat split. eexists. eexists. split; [lazy -[IZR Rmult Rplus]; reflexivity|reflexivity]. Qed.

(* ---------- C26: error behaviour ---------- *)

(** Values of the objective and gradient with and without errors. *)
Theorem C26_error_behavior Theta (c : computation Theta) cfg h p theta cg h' p' :
  objective p < length h -> evaluate c cfg h p theta cg = (h', Some p') ->
  let o := fst (gmm_objective c theta (delta p') (tilde_costs p') (micro p')) in
  (errors p' = [] -> cell h' (objective p') = o /\ finite o) /\
  (errors p' <> [] -> on_error cfg <> Raise) /\
  (errors p' <> [] -> on_error cfg = Revert ->
     (finite o -> cell h' (objective p') = fmul o (punishment cfg)) /\
     (~ finite o -> cell h' (objective p') = fmul (cell h (objective p)) (punishment cfg))) /\
  (errors p' <> [] -> on_error cfg = Punish -> cell h' (objective p') = punishment cfg /\
     (cg = true -> gradient p' = zeros (gradient p))).
Proof. apply error_values. Qed.
Print Assumptions C26_error_behavior.

(** Objectives of earlier evaluations do not change, unless the behaviour is 'revert' and an objective could not be
    computed. *)
Theorem C26_records_kept Theta (c : computation Theta) cfg l h p h' recs :
  evaluations c cfg h p l = (h', recs) -> objective p < length h ->
  (on_error cfg <> Revert \/ forall v q, In (v, q) recs -> ~ In ObjectiveReversion (errors q)) ->
  forall v q, In (v, q) recs -> cell h' (objective q) = v.
Proof. intros E L R. apply (evaluations_records c cfg l h p h' recs E L R). Qed.
Print Assumptions C26_records_kept.

(** In that case the objective of the last evaluation is changed in place. *)
Theorem C26_records_kept_refuted :
  ~ (forall Theta (c : computation Theta) cfg s l h p h' recs, computes_shapes c s -> has_shapes p s -> only_other c ->
       evaluations c cfg h p l = (h', recs) -> objective p < length h ->
       forall v q, In (v, q) recs -> cell h' (objective q) = v).
Proof.
  intro H. destruct example_meets as (E1 & E2 & E3 & _ & _ & L & _).
  destruct (evaluations example_computation (example_configuration Revert First) example_heap example_initial [(0, true); (1, true)])
    as [h' recs] eqn:A.
  assert (F := H _ _ _ _ _ _ _ _ _ E1 E2 E3 A L). cbn in A. injection A as <- <-.
  assert (G := F _ _ (or_introl eq_refl)). cbn in G.
  apply (f_equal (fun f => match f with Num x => x | _ => 0%R end)) in G. cbn in G. lra.
Qed.
Print Assumptions C26_records_kept_refuted.

Example C26_applies :
  (exists h' p', evaluate example_computation (example_configuration Punish First) example_heap example_initial 2 true = (h', Some p') /\
     errors p' = [OtherError 0; DeltaReversion]) /\
  (exists h' recs, evaluations example_computation (example_configuration Punish First) example_heap example_initial
     [(0, true); (1, true); (2, true)] = (h', recs) /\ length recs = 3).
Proof. split; eexists; eexists; (split; [lazy -[IZR Rmult Rplus]; reflexivity|reflexivity]). Qed.

(* ---------- C27: starting values ---------- *)

(** With 'first' (and 'logit'), an evaluation without errors reports the same after any two histories, even ones with
    errors. *)
Theorem C27_history_independent Theta (c : computation Theta) cfg s h p l1 h1 p1 l2 h2 p2 theta cg h1' q1 :
  starting cfg <> Last -> computes_shapes c s -> has_shapes p s -> objective p < length h ->
  after c cfg h p l1 = Some (h1, p1) -> after c cfg h p l2 = Some (h2, p2) ->
  evaluate c cfg h1 p1 theta cg = (h1', Some q1) -> errors q1 = [] ->
  exists h2' q2, evaluate c cfg h2 p2 theta cg = (h2', Some q2) /\ same_reports q1 q2 /\
    cell h2' (objective q2) = cell h1' (objective q1).
Proof. apply history_independent. Qed.
Print Assumptions C27_history_independent.

(** With 'first', fixed points start at the initial delta. *)
Theorem C27_first Theta (c : computation Theta) cfg l h p h' p' theta :
  starting cfg = First -> after c cfg h p l = Some (h', p') -> start_delta c cfg p' theta = next_delta p.
Proof. apply first_starts. Qed.
Print Assumptions C27_first.

(** With 'last', at the delta of the last evaluation. *)
Theorem C27_last Theta (c : computation Theta) cfg h p theta cg h' p' theta' :
  starting cfg = Last -> evaluate c cfg h p theta cg = (h', Some p') -> start_delta c cfg p' theta' = delta p'.
Proof. apply last_starts. Qed.
Print Assumptions C27_last.

(** History matters with 'last'. *)
Definition drifting_computation : computation nat := {|
  supply := false; micro_moments := false; random_coefficients := true;
  logit_delta := fun _ => [Num 0]; fixed_point := fun theta d => (map (fun x => fadd x (Num 1)) d, []);
  micro_values := fun _ _ => ([], []); xi_by_theta := fun _ _ => ([], []); micro_by_theta := fun _ _ => ([], []);
  costs := fun _ _ => ([], []); omega_by_theta := fun _ _ _ => ([], []);
  gmm_objective := fun _ d _ _ => (nth 0 d NaN, []); gmm_gradient := fun _ _ _ _ _ _ _ => [] |}.
Example C27_applies :
  (exists h1 p1 h1' q1, after example_computation (example_configuration Revert First) example_heap example_initial [(1, true); (2, true)] = Some (h1, p1) /\
     evaluate example_computation (example_configuration Revert First) h1 p1 0 true = (h1', Some q1) /\ errors q1 = []) /\
  (let p := {| objective := 0; gradient := []; next_delta := [Num 0]; delta := [Num 0]; tilde_costs := []; micro := [];
               xi_jacobian := []; omega_jacobian := []; micro_jacobian := []; errors := [] |} in
   let objectives b := map fst (snd (evaluations drifting_computation (example_configuration Revert b) example_heap p [(0, false); (0, false)])) in
   objectives First = [Num (0 + 1); Num (0 + 1)] /\ objectives Last = [Num (0 + 1); Num (0 + 1 + 1)]).
Proof.
  split; [do 4 eexists; split; [lazy -[IZR Rmult Rplus]; reflexivity|split; [lazy -[IZR Rmult Rplus]; reflexivity|reflexivity]]|split; lazy -[IZR Rmult Rplus]; reflexivity].
Qed.

Local Open Scope R_scope.

(* ---------- C28: gradient ---------- *)

Theorem C28_gradient scale N M P W (g : nat -> R -> R) (G : nat -> nat -> R) (v : nat -> R) t :
  (forall i j, (i < M)%nat -> (j < M)%nat -> W i j = W j i) ->
  (forall i, (i < M)%nat -> derivable_pt_lim (g i) t (sumn P (fun p => G i p * v p))) ->
  derivable_pt_lim (fun x => gmm_value scale N M W (fun i => g i x)) t
    (sumn P (fun p => gmm_gradient_at scale N M W (fun i => g i t) G p * v p)).
Proof. apply gmm_directional. Qed.
Print Assumptions C28_gradient.

(** C28: the objective is the quadratic form of the moments in the weighting matrix, times the number of
    observations exactly if it is scaled. *)
Theorem C28_objective :
  forall N M W g,
  gmm_value false N M W g = sumn M (fun i => sumn M (fun j => g i * W i j * g j)) /\
  gmm_value true N M W g = INR N * sumn M (fun i => sumn M (fun j => g i * W i j * g j)).
Proof.
  intros N M W g. unfold gmm_value, objective_scale. split; [rewrite Rmult_1_r|rewrite Rmult_comm; f_equal];
    apply sumn_ext; intros i _; rewrite <- sumn_scal; apply sumn_ext; intros; ring.
Qed.
Print Assumptions C28_objective.

(** Symmetry matters, which is why pyblp symmetrises weighting matrices. *)
Theorem C28_asymmetric_refuted :
  ~ (forall scale N M P W (g : nat -> R -> R) (G : nat -> nat -> R) (v : nat -> R) t,
      (forall i, (i < M)%nat -> derivable_pt_lim (g i) t (sumn P (fun p => G i p * v p))) ->
      derivable_pt_lim (fun x => gmm_value scale N M W (fun i => g i x)) t
        (sumn P (fun p => gmm_gradient_at scale N M W (fun i => g i t) G p * v p))).
Proof.
  intro H. specialize (H false 1%nat 2%nat 1%nat (fun i j => if ((i =? 0) && (j =? 1))%nat%bool then 1 else 0)
    (fun i x => if (i =? 0)%nat then x else 1) (fun i _ => if (i =? 0)%nat then 1 else 0) (fun _ => 1) 0).
  assert (D : derivable_pt_lim (fun x => x) 0 1) by apply derivable_pt_lim_id.
  assert (X := H ltac:(intros i _; destruct i; cbn; [replace (0 + 1 * 1) with 1 by ring; exact D|
    replace (0 + 0 * 1) with 0 by ring; apply derivable_pt_lim_const])).
  assert (U : forall f d, derivable_pt_lim f 0 d -> (forall x, x = f x) -> d = 1).
  { intros f d F E. apply (uniqueness_limite _ _ _ _ F). apply (dlim_ext (fun x => x)); assumption. }
  assert (Y := U _ _ X ltac:(intro x; unfold gmm_value, objective_scale; cbn; ring)).
  unfold gmm_gradient_at, objective_scale in Y. cbn in Y. lra.
Qed.
Print Assumptions C28_asymmetric_refuted.

Example C28_applies :
  (forall i j, (i < 2)%nat -> (j < 2)%nat -> (fun i j => if (i =? j)%nat then 2 else 1) i j = (fun i j => if (i =? j)%nat then 2 else 1) j i) /\
  (forall i, (i < 2)%nat -> derivable_pt_lim (fun x => INR i * x) 3 (sumn 1 (fun p => INR i * 1))).
Proof.
  split.
  - intros i j _ _. cbv beta. rewrite Nat.eqb_sym. reflexivity.
  - intros i _. cbn. replace (0 + INR i * 1) with (INR i * 1) by ring. apply deriv_scal. apply derivable_pt_lim_id.
Qed.

(* ---------- C57: projected gradient ---------- *)

(** For parameters within bounds that differ (those of parameters in theta do, see C24). *)
Theorem C57_projected_gradient P theta lb ub g :
  (0 < P)%nat -> in_box P lb ub theta -> (forall p, (p < P)%nat -> fltb (lb p) (ub p) = true) ->
  (projected_norm P theta lb ub g = 0 <-> first_order_optimal P lb ub theta g).
Proof. apply projected_zero. Qed.
Print Assumptions C57_projected_gradient.

Example C57_applies : (0 < 3)%nat /\ in_box 3 (fun p => match p with 0%nat => NInf | 1%nat => Num 0 | _ => Num (-1) end)
    (fun p => match p with 0%nat => PInf | 1%nat => Num 1 | _ => Num 0 end) (fun _ => 0) /\
  (forall p, (p < 3)%nat -> fltb (match p with 0%nat => NInf | 1%nat => Num 0 | _ => Num (-1) end)
     (match p with 0%nat => PInf | 1%nat => Num 1 | _ => Num 0 end) = true).
Proof.
  split; [lia|split]; intros p Hp; destruct p as [|[|[|p]]]; try lia; repeat split; try reflexivity;
    try (apply fleb_num; lra); cbn; apply rltb_iff; lra.
Qed.

(* ---------- C67: concentrated-out parameters ---------- *)

(** Without covariance moments, when the weighting matrix does not link micro moments with others. *)
Theorem C67_concentrated_gradient scale N rows MI MM K P X Z W A (y micro : nat -> R -> R) J JM (v : nat -> R) t :
  (forall i j, (i < MI + MM)%nat -> (j < MI + MM)%nat -> W i j = W j i) ->
  (forall i m, (i < MI)%nat -> (m < MM)%nat -> W i (MI + m)%nat = 0) ->
  inverts K (fun k l => iv_information rows MI X Z W k l) A ->
  (forall n, (n < rows)%nat -> derivable_pt_lim (y n) t (sumn P (fun p => J n p * v p))) ->
  (forall m, (m < MM)%nat -> derivable_pt_lim (micro m) t (sumn P (fun p => JM m p * v p))) ->
  let moments x := evaluation_moments N rows MI K X Z W A (fun n => y n x) (fun m => micro m x) in
  derivable_pt_lim (fun x => gmm_value scale N (MI + MM) W (moments x)) t
    (sumn P (fun p => gmm_gradient_at scale N (MI + MM) W (moments t) (mean_G N rows MI Z J JM) p * v p)).
Proof. apply concentrated_gradient. Qed.
Print Assumptions C67_concentrated_gradient.

(** With covariance moments, converted Jacobians are those of error terms for every weighting matrix. *)
Theorem C67_converted rows MI K P X Z W A (y : nat -> R -> R) J (v : nat -> R) t :
  (forall n, (n < rows)%nat -> derivable_pt_lim (y n) t (sumn P (fun p => J n p * v p))) ->
  forall n, (n < rows)%nat ->
  derivable_pt_lim (fun x => residual K X (iv_parameters rows MI K X Z W A (fun m => y m x)) (fun m => y m x) n) t
    (sumn P (fun p => converted rows MI K X Z W A J n p * v p)).
Proof. apply converted_derivative. Qed.
Print Assumptions C67_converted.

(** The gradient is wrong when the weighting matrix has nonzero elements between micro moments and others. *)
Definition linked_W (i j : nat) : R := if (i =? j)%nat then 2 else 1.
Theorem C67_any_weights_refuted :
  ~ (forall scale N rows MI MM K P X Z W A (y micro : nat -> R -> R) J JM (v : nat -> R) t,
      (forall i j, (i < MI + MM)%nat -> (j < MI + MM)%nat -> W i j = W j i) ->
      inverts K (fun k l => iv_information rows MI X Z W k l) A ->
      (forall n, (n < rows)%nat -> derivable_pt_lim (y n) t (sumn P (fun p => J n p * v p))) ->
      (forall m, (m < MM)%nat -> derivable_pt_lim (micro m) t (sumn P (fun p => JM m p * v p))) ->
      let moments x := evaluation_moments N rows MI K X Z W A (fun n => y n x) (fun m => micro m x) in
      derivable_pt_lim (fun x => gmm_value scale N (MI + MM) W (moments x)) t
        (sumn P (fun p => gmm_gradient_at scale N (MI + MM) W (moments t) (mean_G N rows MI Z J JM) p * v p))).
Proof.
  intro H. specialize (H false 1%nat 1%nat 1%nat 1%nat 1%nat 1%nat (fun _ _ => 1) (fun _ _ => 1) linked_W (fun _ _ => / 2)
    (fun _ x => x) (fun _ x => x) (fun _ _ => 1) (fun _ _ => 1) (fun _ => 1) 1).
  assert (D : forall c, derivable_pt_lim (fun x => x) c (sumn 1 (fun _ => 1 * 1))).
  { intro c. cbn. replace (0 + 1 * 1) with 1 by ring. apply derivable_pt_lim_id. }
  assert (X := H ltac:(intros i j _ _; unfold linked_W; rewrite Nat.eqb_sym; reflexivity)
    ltac:(intros k l Hk Hl; replace k with 0%nat by lia; replace l with 0%nat by lia; unfold iv_information, linked_W; cbn; field)
    ltac:(intros n _; apply D) ltac:(intros m _; apply D)).
  cbv zeta in X.
  assert (Q : derivable_pt_lim (fun x => 2 * (x * x)) 1 (2 * (1 * 1 + 1 * 1))).
  { apply deriv_scal. apply (deriv_mult (fun x => x) (fun x => x)); apply derivable_pt_lim_id. }
  assert (U : forall f d, derivable_pt_lim f 1 d -> (forall x, 2 * (x * x) = f x) -> d = 4).
  { intros f d F E. replace 4 with (2 * (1 * 1 + 1 * 1)) by ring. apply (uniqueness_limite _ _ _ _ F).
    apply (dlim_ext (fun x => 2 * (x * x))); assumption. }
  assert (Y := U _ _ X ltac:(intro x; unfold gmm_value, objective_scale, evaluation_moments, stack_moments, iv_moment, residual,
    iv_parameters, linked_W; cbn; field)).
  unfold gmm_gradient_at, mean_G, objective_scale, evaluation_moments, stack_moments, iv_moment, residual, iv_parameters, linked_W in Y.
  cbn in Y. lra.
Qed.
Print Assumptions C67_any_weights_refuted.

Example C67_applies :
  let W := fun i j => if (i =? j)%nat then 2 else 0 in
  (forall i j, (i < 2 + 1)%nat -> (j < 2 + 1)%nat -> W i j = W j i) /\
  (forall i m, (i < 2)%nat -> (m < 1)%nat -> W i (2 + m)%nat = 0) /\
  inverts 1 (fun k l => iv_information 2 2 (fun _ _ => 1) (fun n i => INR (n + i)) W k l) (fun _ _ => / 20) /\
  (forall n, (n < 2)%nat -> derivable_pt_lim (fun x => INR n * x) 1 (sumn 1 (fun p => INR n * 1))).
Proof.
  intro W. repeat split.
  - intros i j _ _. unfold W. rewrite Nat.eqb_sym. reflexivity.
  - intros i m Hi Hm. unfold W. destruct (Nat.eqb_spec i (2 + m)); [lia|reflexivity].
  - intros k l Hk Hl. replace k with 0%nat by lia. replace l with 0%nat by lia. unfold iv_information, W. cbn. field.
  - intros n _. cbn. replace (0 + INR n * 1) with (INR n * 1) by ring. apply deriv_scal. apply derivable_pt_lim_id.
Qed.
