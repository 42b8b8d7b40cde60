(** C113: Hessians and Jacobians by finite differences. *)
From Coq Require Import Reals List Bool Arith Lia Lra.
From Verif Require Import Base FltModel ProgressModel ProgressSpec ProgressProofs BasicsModel HessModel HessSpec HessProofs.
Import ListNotations.
Local Open Scope R_scope.

(** C113: Hessians are symmetric. *)
Theorem C113_symmetric : forall c cfg P e h p theta h' q H,
  evaluate_hessian c cfg P e h p theta = (h', Some (q, H)) -> forall i j, H i j = H j i.
Proof. intros c cfg P e h p theta h' q H E i j. destruct (hessian_base _ _ _ _ _ _ _ _ _ _ E) as [h1 [cols [_ [_ ->]]]]. apply symmetrized_comm. Qed.
Print Assumptions C113_symmetric.

(** C113: if evaluations at changed parameters give gradients g, then elements of the Hessian are averages of two central differences, ... *)
Theorem C113_central : forall c cfg P e h p theta h1 q g, e <> 0 -> evaluate c cfg h p theta true = (h1, Some q) ->
  (forall x h, perturbation P e theta x -> exists h' q', evaluate c cfg h p x true = (h', Some q') /\ gradient q' = numbers P (g x)) ->
  exists h2 H, evaluate_hessian c cfg P e h p theta = (h2, Some (q, H)) /\
  forall i j, (i < P)%nat -> (j < P)%nat -> H i j = Num ((central (fun x => g x i) theta e j + central (fun x => g x j) theta e i) / 2).
Proof. exact hessian_central. Qed.
Print Assumptions C113_central.

(** ... which differ from second derivatives by at most a multiple of the square of the step, ... *)
Theorem C113_accuracy : forall c cfg P e h p theta h1 q g D L, 0 < e -> evaluate c cfg h p theta true = (h1, Some q) ->
  (forall x h, perturbation P e theta x -> exists h' q', evaluate c cfg h p x true = (h', Some q') /\ gradient q' = numbers P (g x)) ->
  (forall i j, (i < P)%nat -> (j < P)%nat -> smooth_along (fun x => g x i) theta j e (D i j) L /\ D i j = D j i) ->
  exists h2 H, evaluate_hessian c cfg P e h p theta = (h2, Some (q, H)) /\
  forall i j, (i < P)%nat -> (j < P)%nat -> exists x, H i j = Num x /\ Rabs (x - D i j) <= L * e ^ 2 / 24.
Proof.
  intros c cfg P e h p theta h1 q g D L He E G S.
  destruct (hessian_central c cfg P e h p theta h1 q g ltac:(lra) E G) as [h2 [H [EH V]]]. exists h2, H. split; [exact EH|].
  intros i j Hi Hj. eexists. split; [apply V; assumption|].
  assert (A := central_error (fun x => g x i) theta j e (D i j) L He (proj1 (S i j Hi Hj))).
  assert (B := central_error (fun x => g x j) theta i e (D j i) L He (proj1 (S j i Hj Hi))). rewrite (proj2 (S j i Hj Hi)) in B.
  set (a := central (fun x => g x i) theta e j) in *. set (b := central (fun x => g x j) theta e i) in *.
  replace ((a + b) / 2 - D i j) with (/ 2 * ((a - D i j) + (b - D i j))) by field.
  rewrite Rabs_mult, (Rabs_pos_eq (/ 2)) by lra. assert (T := Rabs_triang (a - D i j) (b - D i j)). lra.
Qed.
Print Assumptions C113_accuracy.

(** ... and equal them if the objective is quadratic. *)
Theorem C113_quadratic : forall c cfg P e h p theta h1 q b A, e <> 0 -> evaluate c cfg h p theta true = (h1, Some q) ->
  (forall x h, perturbation P e theta x -> exists h' q', evaluate c cfg h p x true = (h', Some q') /\
     gradient q' = numbers P (fun i => b i + sumn P (fun k => A i k * x k))) ->
  (forall i j, (i < P)%nat -> (j < P)%nat -> A i j = A j i) ->
  exists h2 H, evaluate_hessian c cfg P e h p theta = (h2, Some (q, H)) /\ forall i j, (i < P)%nat -> (j < P)%nat -> H i j = Num (A i j).
Proof.
  intros c cfg P e h p theta h1 q b A He E G S.
  destruct (hessian_central c cfg P e h p theta h1 q (fun x i => b i + sumn P (fun k => A i k * x k)) He E G) as [h2 [H [EH V]]].
  exists h2, H. split; [exact EH|]. intros i j Hi Hj. rewrite V, !central_affine, (S j i Hj Hi) by assumption. f_equal. field.
Qed.
Print Assumptions C113_quadratic.

(** C113: Jacobians by finite differences are central differences of delta, micro moments and costs. *)
Theorem C113_jacobians : forall c cfg P e iv_delta iv_costs N MM h p theta (d m k : (nat -> R) -> nat -> R), e <> 0 ->
  (forall x h, perturbation P e theta x -> exists h' q, evaluate c cfg h p x false = (h', Some q) /\
     iv_delta x (delta q) = numbers N (d x) /\ (micro_moments c = true -> micro q = numbers MM (m x)) /\
     (supply c = true -> iv_costs x (tilde_costs q) = numbers N (k x))) ->
  exists h' JX JM JO, finite_jacobians c cfg P e iv_delta iv_costs N MM h p theta = (h', Some (JX, JM, JO)) /\
  forall j, (j < P)%nat ->
    (forall i, (i < N)%nat -> element JX i j = Num (central (fun x => d x i) theta e j)) /\
    (micro_moments c = true -> forall i, (i < MM)%nat -> element JM i j = Num (central (fun x => m x i) theta e j)) /\
    (supply c = true -> forall i, (i < N)%nat -> element JO i j = Num (central (fun x => k x i) theta e j)).
Proof. exact jacobians_central. Qed.
Print Assumptions C113_jacobians.

(** C113: a central difference is within a multiple of the square of the step of the derivative. *)
Theorem C113_jacobian_accuracy : forall f theta j e d L, 0 < e -> smooth_along f theta j e d L ->
  Rabs (central f theta e j - d) <= L * e ^ 2 / 24.
Proof. exact central_error. Qed.
Print Assumptions C113_jacobian_accuracy.

(** C113: exceptions at changed parameters are exceptions of the evaluation, ... *)
Theorem C113_raised : forall c cfg P e h p theta x, perturbation P e theta x -> (forall h, snd (evaluate c cfg h p x true) = None) ->
  snd (evaluate_hessian c cfg P e h p theta) = None.
Proof. exact hessian_raises. Qed.
Print Assumptions C113_raised.

(** ... but unless they are raised, errors at changed parameters are not recorded: what is reported is what an evaluation
    without a Hessian reports, ... *)
Theorem C113_errors : forall c cfg P e h p theta h' q H, evaluate_hessian c cfg P e h p theta = (h', Some (q, H)) ->
  exists h1, evaluate c cfg h p theta true = (h1, Some q).
Proof. intros c cfg P e h p theta h' q H E. destruct (hessian_base _ _ _ _ _ _ _ _ _ _ E) as [h1 [cols [E1 _]]]. exists h1. exact E1. Qed.
Print Assumptions C113_errors.

(** ... so that a Hessian can be wrong, and indicate a maximum at a point of a convex objective, without any error. *)
Theorem C113_reported_refuted : forall e, 0 < e < 2 -> exists c p theta,
  (forall h x, x 0%nat <= 1 -> exists h' q, evaluate c (wconfiguration Punish) h p x true = (h', Some q) /\
     errors q = [] /\ gradient q = [Num (x 0%nat)] /\ cell h' (objective q) = Num (x 0%nat * x 0%nat / 2)) /\
  theta 0%nat <= 1 /\
  forall h, exists h' q H r, evaluate_hessian c (wconfiguration Punish) 1 e h p theta = (h', Some (q, H)) /\ errors q = [] /\
    H 0%nat 0%nat = Num r /\ r < 0.
Proof.
  intros e He. set (b := fun x : nat -> R => if Rle_dec (x 0%nat) 1 then true else false).
  assert (W : forall h x, x 0%nat <= 1 -> exists h' q, evaluate (wcomputation b (fun _ => true)) (wconfiguration Punish) h wprogress x true = (h', Some q) /\
     errors q = [] /\ gradient q = [Num (x 0%nat)] /\ cell h' (objective q) = Num (x 0%nat * x 0%nat / 2)).
  { intros h x Hx. assert (B : b x = true) by (unfold b; destruct (Rle_dec (x 0%nat) 1); [reflexivity|contradiction]).
    destruct (wgood b (fun _ => true) Punish h x B eq_refl) as [q [E [Q1 [Q2 Q3]]]]. eexists _, q. split; [exact E|].
    repeat split; [exact Q1|exact Q2|]. rewrite Q3. apply cell_new. }
  exists (wcomputation b (fun _ => true)), wprogress, (fun _ => 1). split; [exact W|]. split; [lra|]. intro h.
  destruct (W h (fun _ => 1) ltac:(lra)) as [h1 [q [E [Q1 _]]]].
  destruct (hessian_central (wcomputation b (fun _ => true)) (wconfiguration Punish) 1 e h wprogress (fun _ => 1) h1 q
    (fun x i => if b x then x i else 0) ltac:(lra) E) as [h2 [H [EH V]]].
  { intros x h' _. destruct (b x) eqn:B.
    - destruct (wgood b (fun _ => true) Punish h' x B eq_refl) as [q' [E' [_ [G' _]]]]. eexists _, q'. split; [exact E'|exact G'].
    - destruct (wpunished b (fun _ => true) h' x B) as [h'' [q' [E' G']]]. exists h'', q'. split; [exact E'|exact G']. }
  eexists h2, q, H, _. split; [exact EH|]. split; [exact Q1|]. split; [apply V; lia|].
  assert (B1 : b (moved (fun _ => 1) 0 (e / 2)) = false) by (unfold b, moved; cbn; destruct (Rle_dec (1 + e / 2) 1); [lra|reflexivity]).
  assert (B2 : b (moved (fun _ => 1) 0 (- (e / 2))) = true) by (unfold b, moved; cbn; destruct (Rle_dec (1 + - (e / 2)) 1); [reflexivity|lra]).
  unfold central. rewrite B1, B2. unfold moved. cbn [Nat.eqb].
  replace ((((0 - (1 + - (e / 2))) / e + (0 - (1 + - (e / 2))) / e) / 2)) with (- ((1 - e / 2) * / e)) by (field; lra).
  assert (0 < (1 - e / 2) * / e) by (apply Rmult_lt_0_compat; [lra|apply Rinv_0_lt_compat; lra]). lra.
Qed.
Print Assumptions C113_reported_refuted.

(** C113: computing a Hessian does not change the objective unless it could not be computed and errors are reverted, ... *)
Theorem C113_objective : forall c cfg P e h p theta h1 q h2 H, (objective p < length h)%nat ->
  evaluate c cfg h p theta true = (h1, Some q) -> evaluate_hessian c cfg P e h p theta = (h2, Some (q, H)) ->
  on_error cfg <> Revert \/ ~ In ObjectiveReversion (errors q) -> cell h2 (objective q) = cell h1 (objective q).
Proof. exact hessian_objective. Qed.
Print Assumptions C113_objective.

(** ... when the objective of the last evaluation is multiplied in place again for each changed parameter at which it cannot be computed either. *)
Theorem C113_objective_refuted : exists c cfg p theta h h1 q h2 H, (objective p < length h)%nat /\ cell h (objective p) = Num 1 /\ punishment cfg = Num 2 /\
  evaluate c cfg h p theta true = (h1, Some q) /\ cell h1 (objective q) = Num 2 /\
  evaluate_hessian c cfg 1 1 h p theta = (h2, Some (q, H)) /\ cell h2 (objective q) = Num 8.
Proof.
  set (c := wcomputation (fun _ => true) (fun _ => false)).
  assert (W := fun h theta => wreverted (fun _ => true) (fun _ => false) h theta eq_refl eq_refl). fold c in W.
  destruct (W [Num 1] (fun _ => 0)) as [q [E [_ O]]].
  assert (E1 : exists h2 H, evaluate_hessian c (wconfiguration Revert) 1 1 [Num 1] wprogress (fun _ => 0) = (h2, Some (q, H)) /\ cell h2 0 = Num 8).
  { unfold evaluate_hessian. rewrite E. cbn [differences seq]. unfold perturbed_gradient.
    destruct (W (set_cell ([Num 1] ++ [NaN]) 0 (fmul (cell ([Num 1] ++ [NaN]) 0) (Num 2))) (bump (fun _ => 0) 0 (1 / 2))) as [q1 [-> _]].
    match goal with |- context [evaluate c _ ?h _ ?x true] => destruct (W h x) as [q2 [-> _]] end.
    eexists _, _. split; [reflexivity|]. cbn. f_equal. ring. }
  destruct E1 as [h2 [H [E2 C2]]].
  exists c, (wconfiguration Revert), wprogress, (fun _ => 0), [Num 1]. eexists _, q, h2, H.
  split; [cbn; lia|]. split; [reflexivity|]. split; [reflexivity|]. split; [exact E|]. rewrite O.
  split; [cbn; f_equal; ring|]. split; [exact E2|exact C2].
Qed.
Print Assumptions C113_objective_refuted.

(** Everything can be computed: a quadratic objective, whose gradient also is smooth. *)
Example C113_applies : forall cfg e theta h, exists h1 q, let c := wcomputation (fun _ => true) (fun _ => true) in
  evaluate c (wconfiguration cfg) h wprogress theta true = (h1, Some q) /\ ~ In ObjectiveReversion (errors q) /\
  (forall x h, perturbation 1 e theta x -> exists h' q', evaluate c (wconfiguration cfg) h wprogress x true = (h', Some q') /\
     gradient q' = numbers 1 (fun i => 0 + sumn 1 (fun k => 1 * x k))) /\
  (forall i j, (i < 1)%nat -> (j < 1)%nat -> smooth_along (fun x => x i) theta j e 1 0).
Proof.
  intros cfg e theta h. destruct (wgood (fun _ => true) (fun _ => true) cfg h theta eq_refl eq_refl) as [q [E [Q1 [Q2 Q3]]]].
  eexists _, q. cbv zeta. split; [exact E|]. split; [rewrite Q1; intros []|]. split.
  - intros x h' _. destruct (wgood (fun _ => true) (fun _ => true) cfg h' x eq_refl eq_refl) as [q' [E' [_ [G' _]]]].
    eexists _, q'. split; [exact E'|]. rewrite G'. cbn. do 2 f_equal. ring.
  - intros i j Hi Hj. exists (fun _ => 1), (fun _ => 0), (fun _ => 0). split; [reflexivity|]. intros t _.
    split; [|split; [apply (derivable_pt_lim_const 1)|split; [apply (derivable_pt_lim_const 0)|rewrite Rabs_R0; lra]]].
    assert (i = j) by lia. subst. unfold moved. rewrite Nat.eqb_refl. replace 1 with (0 + 1) by ring.
    apply (derivable_pt_lim_plus (fun _ => theta j) (fun s => s)); [apply derivable_pt_lim_const|apply derivable_pt_lim_id].
Qed.

(** Changed parameters at which an exception is raised. *)
Example C113_raised_applies : exists c p, perturbation 1 1 (fun _ => 0) (moved (fun _ => 0) 0 (1 / 2)) /\
  (forall h, snd (evaluate c (wconfiguration ProgressModel.Raise) h p (moved (fun _ => 0) 0 (1 / 2)) true) = None) /\
  exists h q, evaluate c (wconfiguration ProgressModel.Raise) [] p (fun _ => 0) true = (h, Some q).
Proof.
  set (b := fun x : nat -> R => if Rle_dec (x 0%nat) 0 then true else false).
  exists (wcomputation b (fun _ => true)), wprogress. split; [exists 0%nat, (1 / 2); repeat split; [lia|left; reflexivity]|]. split.
  - intro h. unfold evaluate, raw_quantities, market_by_market. cbn.
    assert (B : b (moved (fun _ => 0) 0 (1 / 2)) = false) by (unfold b, moved; cbn; destruct (Rle_dec (0 + 1 / 2) 0); [lra|reflexivity]).
    rewrite B. reflexivity.
  - assert (B : b (fun _ => 0) = true) by (unfold b; destruct (Rle_dec 0 0); [reflexivity|lra]).
    destruct (wgood b (fun _ => true) ProgressModel.Raise [] (fun _ => 0) B eq_refl) as [q [E _]]. eexists _, q. exact E.
Qed.

(** Jacobians: delta is the square of the parameter, and there is a micro moment. *)
Example C113_jacobians_applies : exists c p, micro_moments c = true /\ supply c = true /\
  forall cfg h x, exists h' q, evaluate c (wconfiguration cfg) h p x false = (h', Some q) /\
    delta q = numbers 1 (fun _ => x 0%nat * x 0%nat) /\ micro q = numbers 1 (fun _ => 3 * x 0%nat) /\ tilde_costs q = numbers 1 (fun _ => x 0%nat - 1).
Proof.
  exists {| supply := true; micro_moments := true; random_coefficients := true;
    logit_delta := fun _ => [Num 0]; fixed_point := fun x _ => ([Num (x 0%nat * x 0%nat)], []); micro_values := fun x _ => ([Num (3 * x 0%nat)], []);
    xi_by_theta := fun _ _ => ([Num 0], []); micro_by_theta := fun _ _ => ([Num 0], []); costs := fun x _ => ([Num (x 0%nat - 1)], []);
    omega_by_theta := fun _ _ _ => ([Num 0], []); gmm_objective := fun _ _ _ _ => (Num 0, []); gmm_gradient := fun _ _ _ _ _ _ _ => [Num 0] |},
    {| objective := 0; gradient := [Num 0]; next_delta := [Num 0]; delta := [Num 0]; tilde_costs := [Num 0]; micro := [Num 0];
       xi_jacobian := [Num 0]; omega_jacobian := [Num 0]; micro_jacobian := [Num 0]; errors := [] |}.
  split; [reflexivity|]. split; [reflexivity|]. intros cfg h x. unfold evaluate, raw_quantities, market_by_market. cbn.
  eexists _, _. split; [reflexivity|]. repeat split.
Qed.
