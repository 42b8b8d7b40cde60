(** C114: the analytic gradient of the GMM objective is its gradient. *)
From Coq Require Import Reals Lra Lia List Bool Arith.
From Verif Require Import ProgressModel Base DemandModel SupplyModel DerivModel MicroModel NestModel GradModel GradSpec GradProofs GradWitness
  GradCovModel GradCovProofs GradDiffModel GradDiffProofs.
From Verif Require DiffModel DiffSpec.
Import ListNotations.
Local Open Scope R_scope.

(** The i-th parameter of theta moves while the others stay.  Objectives may be evaluated with or without the
    inverse that is kept for the gradient. *)
Theorem C114_gradient : forall solve inverse ec delta_of theta v i keep,
  let p := theta i in
  let t := value_at v p in
  exact_solve solve -> exact_inverse inverse -> refers ec -> gmm_ready ec ->
  (forall s, (s < ec_T ec)%nat -> regular (ec_market ec s) v /\ in_theta ec (ec_market ec s) v p) ->
  (exists r, 0 < r /\ forall y, Rabs (y - t) < r -> clean solve inverse ec delta_of keep (moved v p y)) ->
  clean solve inverse ec delta_of true v -> columns_ready solve ec delta_of v p ->
  costs_ready solve inverse ec delta_of v -> micro_ready ec delta_of v ->
  derivable_pt_lim (fun y => objective_at solve inverse ec delta_of keep (moved v p y)) t
    (gradient_at solve inverse ec delta_of theta v i).
Proof.
  intros solve inverse ec delta_of theta v i keep p t HS HI HF HG HR (r & Hr & HC) HT HX HL HM.
  exact (gradient_exact solve inverse ec delta_of theta v i keep HS HI HF HG (fun s Hs => proj1 (HR s Hs)) (fun s Hs => proj2 (HR s Hs))
    r Hr HC HT HX HL HM).
Qed.
Print Assumptions C114_gradient.

(** Objectives evaluated with and without the gradient are the same. *)
Theorem C114_objectives_agree : forall solve inverse ec delta_of v,
  exact_solve solve -> exact_inverse inverse -> refers ec ->
  clean solve inverse ec delta_of false v -> clean solve inverse ec delta_of true v ->
  objective_at solve inverse ec delta_of false v = objective_at solve inverse ec delta_of true v.
Proof. exact objectives_agree. Qed.
Print Assumptions C114_objectives_agree.

(** A parameter of each kind. *)
Example C114_applies : forall i keep,
  let p := ex_theta i in
  let t := value_at ex_point p in
  let delta_of := fun (_ : point) (_ _ : nat) => 0 in
  exact_solve ex_solve /\ exact_inverse ex_inverse /\ refers ex_economy /\ gmm_ready ex_economy /\
  (forall s, (s < ec_T ex_economy)%nat -> regular (ec_market ex_economy s) ex_point /\ in_theta ex_economy (ec_market ex_economy s) ex_point p) /\
  (exists r, 0 < r /\ forall y, Rabs (y - t) < r -> clean ex_solve ex_inverse ex_economy delta_of keep (moved ex_point p y)) /\
  clean ex_solve ex_inverse ex_economy delta_of true ex_point /\ columns_ready ex_solve ex_economy delta_of ex_point p /\
  costs_ready ex_solve ex_inverse ex_economy delta_of ex_point /\ micro_ready ex_economy delta_of ex_point.
Proof.
  intros i keep p t delta_of. destruct (ex_ready i) as (A & B & C & D & E & F & G & H & I).
  split; [exact ex_solve_exact|]. split; [exact ex_inverse_exact|]. split; [exact A|]. split; [exact B|].
  split; [intros s _; split; [exact C|exact D]|].
  split; [exists (/ 4); split; [apply Rinv_0_lt_compat, Rmult_lt_0_compat; apply Rlt_0_2|exact (E keep)]|].
  split; [exact F|]. split; [exact G|]. split; [exact H|exact I].
Qed.

(** With covariance moments Jacobians are converted before they are used, so that weights need only be symmetric. *)
Theorem C114_covariance_gradient : forall solve inverse ec cm delta_of theta v i keep,
  let p := theta i in
  let t := value_at v p in
  let M := (ec_MI ec + (cm_MC cm + MM ec))%nat in
  exact_solve solve -> exact_inverse inverse -> refers ec ->
  (forall a b, (a < M)%nat -> (b < M)%nat -> ec_W ec a b = ec_W ec b a) -> ec_supply ec = true ->
  (forall s, (s < ec_T ec)%nat -> regular (ec_market ec s) v /\ in_theta ec (ec_market ec s) v p) ->
  (exists r, 0 < r /\ forall y, Rabs (y - t) < r -> clean solve inverse ec delta_of keep (moved v p y)) ->
  clean solve inverse ec delta_of true v -> columns_ready solve ec delta_of v p ->
  costs_ready solve inverse ec delta_of v -> micro_ready ec delta_of v ->
  derivable_pt_lim (fun y => covariance_objective_at solve inverse ec cm delta_of keep (moved v p y)) t
    (covariance_gradient_at solve inverse ec cm delta_of theta v i).
Proof.
  intros solve inverse ec cm delta_of theta v i keep p t M HS HI HF HW HY HR (r & Hr & HC) HT HX HL HM.
  exact (covariance_gradient_exact solve inverse ec cm delta_of theta v i keep HS HI HF HW HY (fun s Hs => proj1 (HR s Hs))
    (fun s Hs => proj2 (HR s Hs)) r Hr HC HT HX HL HM).
Qed.
Print Assumptions C114_covariance_gradient.

(** With moments in innovations, for a parameter other than phi, ... *)
Theorem C114_innovations_gradient : forall solve inverse ec im delta_of v p phi keep,
  let t := value_at v p in
  let B := DiffModel.information (ec_N ec) (in_lag im) (in_K1 im) (in_X1 im) (in_X3 im) (in_moments im) (in_W im) phi in
  exact_solve solve -> exact_inverse inverse -> refers ec ->
  DiffSpec.symmetric_weights (DiffModel.M (in_moments im)) (in_W im) -> DiffSpec.inverse_of (in_K im) B (in_inverse im B) ->
  (forall s, (s < ec_T ec)%nat -> regular (ec_market ec s) v /\ in_theta ec (ec_market ec s) v p) ->
  (exists r, 0 < r /\ forall y, Rabs (y - t) < r -> clean solve inverse ec delta_of keep (moved v p y)) ->
  clean solve inverse ec delta_of true v -> columns_ready solve ec delta_of v p -> costs_ready solve inverse ec delta_of v ->
  derivable_pt_lim (fun y => innovations_objective solve inverse ec im delta_of keep (moved v p y) phi) t
    (innovations_gradient solve inverse ec im delta_of v phi p).
Proof.
  intros solve inverse ec im delta_of v p phi keep t B HS HI HF HW HA HR (r & Hr & HC) HT HX HL.
  exact (innovations_gradient_exact solve inverse ec im delta_of v p phi keep HS HI HF HW HA (fun s Hs => proj1 (HR s Hs))
    (fun s Hs => proj2 (HR s Hs)) r Hr HC HT HX HL).
Qed.
Print Assumptions C114_innovations_gradient.

(** ... and for an element of phi. *)
Theorem C114_autocorrelation_gradient : forall solve inverse ec im delta_of v phi a b,
  let B y := DiffModel.information (ec_N ec) (in_lag im) (in_K1 im) (in_X1 im) (in_X3 im) (in_moments im) (in_W im) (phi_with phi a b y) in
  DiffSpec.symmetric_weights (DiffModel.M (in_moments im)) (in_W im) ->
  (exists r, 0 < r /\ forall y, Rabs (y - phi a b) < r -> DiffSpec.inverse_of (in_K im) (B y) (in_inverse im (B y))) ->
  (a < 2)%nat -> (b < 2)%nat ->
  derivable_pt_lim (fun y => innovations_objective solve inverse ec im delta_of true v (phi_with phi a b y)) (phi a b)
    (autocorrelation_gradient solve inverse ec im delta_of v phi a b).
Proof. exact autocorrelation_gradient_exact. Qed.
Print Assumptions C114_autocorrelation_gradient.

(** The same economy with one covariance instrument: weights are symmetric. *)
Example C114_applies_covariance : forall m,
  let cm := mk_covariance_moments 1 (fun _ _ => 1) m in
  let M := (ec_MI ex_economy + (cm_MC cm + MM ex_economy))%nat in
  (forall a b, (a < M)%nat -> (b < M)%nat -> ec_W ex_economy a b = ec_W ex_economy b a) /\ ec_supply ex_economy = true /\ M = 4%nat.
Proof. intros m cm M. split; [intros a b _ _; cbn; unfold eqR; rewrite Nat.eqb_sym; reflexivity|]. split; reflexivity. Qed.

(** A panel of two markets in which costs of the second product depend on past demand, with a moment in levels and one in innovations. *)
Definition ex_panel : economy :=
  mk_economy 2 (fun _ => ex_market) 2 (fun n => (n, O)) true true 2 (fun k => Nat.eqb k 0) 1 (fun _ => false)
    (fun _ => []) [] 2 1 (fun n _ => eqR n 0) eqR eqR (fun _ _ => 1) eqR true.
Definition ex_innovations : innovations :=
  mk_innovations (fun _ => O) 1 1 (fun _ _ => 1) (fun _ _ => 0)
    [(DiffModel.Demand, DiffModel.Levels, fun _ => 1); (DiffModel.Supply, DiffModel.Innovations, fun n => eqR n 1)] eqR
    (fun B _ _ => / B O O) 2.
Example C114_applies_innovations : forall i keep phi a b,
  let p := ex_theta i in
  let t := value_at ex_point p in
  let delta_of := fun (_ : point) (_ _ : nat) => 0 in
  let im := ex_innovations in
  let B phi := DiffModel.information (ec_N ex_panel) (in_lag im) (in_K1 im) (in_X1 im) (in_X3 im) (in_moments im) (in_W im) phi in
  exact_solve ex_solve /\ exact_inverse ex_inverse /\ refers ex_panel /\
  DiffSpec.symmetric_weights (DiffModel.M (in_moments im)) (in_W im) /\ DiffSpec.inverse_of (in_K im) (B phi) (in_inverse im (B phi)) /\
  (forall s, (s < ec_T ex_panel)%nat -> regular (ec_market ex_panel s) ex_point /\ in_theta ex_panel (ec_market ex_panel s) ex_point p) /\
  (exists r, 0 < r /\ forall y, Rabs (y - t) < r -> clean ex_solve ex_inverse ex_panel delta_of keep (moved ex_point p y)) /\
  clean ex_solve ex_inverse ex_panel delta_of true ex_point /\ columns_ready ex_solve ex_panel delta_of ex_point p /\
  costs_ready ex_solve ex_inverse ex_panel delta_of ex_point /\
  (exists r, 0 < r /\ forall y, Rabs (y - phi a b) < r -> DiffSpec.inverse_of (in_K im) (B (phi_with phi a b y)) (in_inverse im (B (phi_with phi a b y)))).
Proof.
  intros i keep phi a b p t delta_of im B. destruct (ex_ready i) as (_ & _ & C & D & E & F & G & H & _).
  assert (IB : forall phi, DiffSpec.inverse_of (in_K im) (B phi) (in_inverse im (B phi))).
  { intros f k l Hk Hl. assert (k = O) by (cbn in Hk; lia). assert (l = O) by (cbn in Hl; lia). subst.
    assert (V : B f O O = 4 + f 1%nat O * f 1%nat O).
    { unfold B, DiffModel.information, DiffModel.ZX, DiffModel.M, DiffModel.side_of, DiffModel.type_of, DiffModel.z. cbn.
      unfold DiffModel.extended_X1, DiffModel.extended_X3, DiffModel.quasi, eqR. cbn. ring. }
    cbn [sumn im ex_innovations in_K in_inverse Nat.eqb]. rewrite V. field. nra. }
  split; [exact ex_solve_exact|]. split; [exact ex_inverse_exact|].
  split; [split; [intros n Hn; cbn in *; lia|intros q s sv []]|].
  split; [intros k l _ _; cbn; unfold eqR; rewrite Nat.eqb_sym; reflexivity|]. split; [exact (IB phi)|].
  split; [intros s _; split; [exact C|exact D]|].
  split; [exists (/ 4); split; [lra|]; intros y Hy s _; exact (E keep y Hy O Nat.lt_0_1)|].
  split; [intros s _; exact (F O Nat.lt_0_1)|]. split; [intros s _; exact (G O Nat.lt_0_1)|].
  split; [intros e1 e2 s j _ Hj; exact (H e1 e2 O j Nat.lt_0_1 Hj)|].
  exists 1. split; [lra|]. intros y _. apply IB.
Qed.
