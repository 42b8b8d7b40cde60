(** C73: moments in innovations and differenced innovations. *)
From Coq Require Import Reals List Bool Arith Lia Lra.
From Verif Require Import Base DiffModel DiffSpec SimSpec DemandDeriv DiffProofs.
Import ListNotations.
Local Open Scope R_scope.

(** Residuals of the regression that estimates linear parameters, which are multiplied by instruments to
    give moments, are errors themselves, their innovations, or changes of their innovations. *)
Theorem C73_differences : forall N lag K1 K X1 X3 ms W inverse absorb_demand absorb_supply phi delta costs m r,
  moment_error lag phi
    (fun r c => if Nat.eqb c 0 then xi N lag K1 K X1 X3 ms W inverse absorb_demand absorb_supply phi delta costs r
                else omega N lag K1 K X1 X3 ms W inverse absorb_demand absorb_supply phi delta costs r)
    (type_of ms m) (row_of (side_of ms m)) r
    (residual lag K1 K X1 X3 ms absorb_demand absorb_supply phi delta costs
       (parameters N lag K1 K X1 X3 ms W inverse absorb_demand absorb_supply phi delta costs) m r).
Proof. exact residual_errors. Qed.
Print Assumptions C73_differences.

(** Errors are what characteristics and estimates of each equation leave over: the first K1 estimates are those of demand, the others are
    those of supply. *)
Theorem C73_errors : forall N lag K1 K3 X1 X3 ms W inverse absorb_demand absorb_supply phi delta costs r,
  let estimates := parameters N lag K1 (K1 + K3) X1 X3 ms W inverse absorb_demand absorb_supply phi delta costs in
  xi N lag K1 (K1 + K3) X1 X3 ms W inverse absorb_demand absorb_supply phi delta costs r
    = absorb_demand delta r - sumn K1 (fun k => X1 r k * estimates k) /\
  omega N lag K1 (K1 + K3) X1 X3 ms W inverse absorb_demand absorb_supply phi delta costs r
    = absorb_supply costs r - sumn K3 (fun k => X3 r k * estimates (K1 + k)%nat).
Proof. intros. split; [apply xi_equation|apply omega_equation]. Qed.
Print Assumptions C73_errors.

(** Fixed effects are accepted only with moments in levels on the same side. *)
Theorem C73_fixed_effects : forall types E, fixed_effects_allowed types E = true <-> ((0 < E)%nat -> forall ty count, In (ty, count) types -> ty = Levels).
Proof.
  intros types E. unfold fixed_effects_allowed, in_levels. rewrite orb_true_iff, forallb_forall, Nat.eqb_eq. split.
  - intros [H| ->] P ty count I; [|lia]. specialize (H _ I). cbn [fst] in H. destruct ty; [reflexivity|discriminate|discriminate].
  - intros H. destruct E as [|E]; [right; reflexivity|]. left. intros [ty count] I. rewrite (H ltac:(lia) ty count I). reflexivity.
Qed.
Print Assumptions C73_fixed_effects.

(** If counts of instruments of all types are those of demand- and supply-side instruments, then all instruments are used once, in their
    order, with the side and the type that are listed for them. *)
Theorem C73_columns : forall demand_types supply_types ZD ZS,
  list_sum (map snd demand_types) = List.length ZD -> list_sum (map snd supply_types) = List.length ZS ->
  let listed := flat_map (fun tc => repeat (fst tc) (snd tc)) in
  map snd (moments demand_types supply_types ZD ZS) = ZD ++ ZS /\
  map fst (moments demand_types supply_types ZD ZS) = map (pair Demand) (listed demand_types) ++ map (pair Supply) (listed supply_types).
Proof.
  intros dt st ZD ZS HD HS listed. unfold moments. rewrite !map_app. destruct (split_columns_all Demand dt ZD HD) as [A1 A2].
  destruct (split_columns_all Supply st ZS HS) as [B1 B2]. split; [exact (f_equal2 (@app _) A1 B1)|exact (f_equal2 (@app _) A2 B2)].
Qed.
Print Assumptions C73_columns.

(** If xi and omega follow the autoregression with which simulations generate them, then moments in
    innovations use the draws and moments in differenced innovations use changes of the draws. *)
Theorem C73_recovers : forall N lag K1 K X1 X3 ms W inverse absorb_demand absorb_supply phi delta costs draws m r u,
  let errors := fun r c => if Nat.eqb c 0 then xi N lag K1 K X1 X3 ms W inverse absorb_demand absorb_supply phi delta costs r
                           else omega N lag K1 K X1 X3 ms W inverse absorb_demand absorb_supply phi delta costs r in
  u = residual lag K1 K X1 X3 ms absorb_demand absorb_supply phi delta costs
        (parameters N lag K1 K X1 X3 ms W inverse absorb_demand absorb_supply phi delta costs) m r ->
  lag r <> r -> autoregressive lag phi draws errors r ->
  (type_of ms m = Innovations -> u = draws r (row_of (side_of ms m))) /\
  (type_of ms m = Differenced -> lag (lag r) <> lag r -> autoregressive lag phi draws errors (lag r) ->
   u = draws r (row_of (side_of ms m)) - draws (lag r) (row_of (side_of ms m))).
Proof.
  intros N lag K1 K X1 X3 ms W inverse ad as_ phi delta costs draws m r u errors Hu Hl Hr.
  assert (E := residual_errors N lag K1 K X1 X3 ms W inverse ad as_ phi delta costs m r). rewrite <- Hu in E. fold errors in E.
  split; [intro T|intros T Hl2 Hr2]; rewrite T in E; cbn [moment_error] in E.
  - rewrite (proj2 E Hl). apply innovation_autoregressive, Hr.
  - rewrite (proj2 E Hl Hl2), (innovation_autoregressive _ _ _ _ _ _ Hr), (innovation_autoregressive _ _ _ _ _ _ Hr2). reflexivity.
Qed.
Print Assumptions C73_recovers.

(** Without absorbed fixed effects, and if inverses are exact near the point, the gradient is the derivative
    of the objective in which linear parameters are re-estimated. *)
Theorem C73_gradient_partial : forall N lag K1 K X1 X3 ms W inverse scale phi delta costs at_phi t xi_jacobian omega_jacobian,
  symmetric_weights (M ms) W ->
  (exists r, 0 < r /\ forall x, Rabs (x - t) < r ->
     inverse_of K (information N lag K1 X1 X3 ms W (phi x)) (inverse (information N lag K1 X1 X3 ms W (phi x)))) ->
  (forall i j, (i < 2)%nat -> (j < 2)%nat -> derivable_pt_lim (fun x => phi x i j) t (phi_derivative at_phi i j)) ->
  (forall i j, at_phi = Some (i, j) -> (i < 2)%nat /\ (j < 2)%nat) ->
  (forall r, derivable_pt_lim (fun x => delta x r) t (xi_jacobian r)) ->
  (forall r, derivable_pt_lim (fun x => costs x r) t (omega_jacobian r)) ->
  derivable_pt_lim (fun x => objective N lag K1 K X1 X3 ms W inverse (fun x => x) (fun x => x) scale (phi x) (delta x) (costs x)) t
    (gradient N lag K1 K X1 X3 ms W inverse (fun x => x) (fun x => x) scale (phi t) (delta t) (costs t) xi_jacobian omega_jacobian at_phi).
Proof. exact gradient_correct. Qed.
Print Assumptions C73_gradient_partial.

(** Demand-side fixed effects are accepted with supply-side moments in innovations (and with cross
    autocorrelation), but then the gradient is not the derivative of the objective: Jacobians are not absorbed. *)
Theorem C73_refuted : exists demand_types supply_types ED ES ZD ZS N lag K1 K X1 X3 W inverse absorb_demand scale phi delta costs xi_jacobian omega_jacobian,
  fixed_effects_allowed demand_types ED = true /\ fixed_effects_allowed supply_types ES = true /\
  (forall x r, absorb_demand x r = x r - sumn N x / INR N) /\
  (forall k, (k < K1)%nat -> sumn N (fun r => X1 r k) = 0) /\ (forall Z, In Z ZD -> sumn N Z = 0) /\
  symmetric_weights (M (moments demand_types supply_types ZD ZS)) W /\
  inverse_of K (information N lag K1 X1 X3 (moments demand_types supply_types ZD ZS) W phi)
    (inverse (information N lag K1 X1 X3 (moments demand_types supply_types ZD ZS) W phi)) /\
  (forall t r, derivable_pt_lim (fun x => delta x r) t (xi_jacobian r)) /\
  (forall t r, derivable_pt_lim (fun x => costs x r) t (omega_jacobian r)) /\
  ~ derivable_pt_lim (fun x => objective N lag K1 K X1 X3 (moments demand_types supply_types ZD ZS) W inverse absorb_demand (fun x => x) scale phi (delta x) (costs x)) 0
    (gradient N lag K1 K X1 X3 (moments demand_types supply_types ZD ZS) W inverse absorb_demand (fun x => x) scale phi (delta 0) (costs 0) xi_jacobian omega_jacobian None).
Proof.
  exists [(Levels, 1%nat)], [(Innovations, 1%nat)], 1%nat, 0%nat, [wX1], [fun r => match r with 1%nat => 1 | _ => 0 end], 3%nat, wlag, 1%nat, 1%nat,
    (fun r _ => wX1 r), (fun _ _ => 0), wW, winverse, demean, 1, wphi, wdelta, (fun _ => wcosts), wjacobian, (fun _ => 0).
  split; [reflexivity|]. split; [reflexivity|].
  split; [intros x r; unfold demean; cbn; field|].
  split; [intros k _; cbn; ring|].
  split; [intros Z [<-|[]]; cbn; ring|].
  split; [intros i j _ _; unfold wW; rewrite Nat.eqb_sym; reflexivity|].
  split.
  { intros k l Hk Hl. assert (k = 0%nat) by lia. assert (l = 0%nat) by lia. subst. cbn [sumn]. unfold winverse.
    change (moments _ _ _ _) with wms. rewrite winformation. cbn [Nat.eqb]. field. }
  split.
  { intros t [|r]; cbn; [apply derivable_pt_lim_id|apply (derivable_pt_lim_const 0)]. }
  split; [intros t r; apply derivable_pt_lim_const|].
  intro D. assert (G := wgradient 0). unfold wms in G. rewrite G in D.
  assert (D' : derivable_pt_lim (fun t => (2 - t / 3) * (2 - t / 3) / 45) 0 (- 2 * (2 - 0 / 3) / 45)).
  { refine (dlim_ext _ _ _ _ _ D). intro t. apply wobjective. }
  assert (T : derivable_pt_lim (fun t => (2 - t / 3) * (2 - t / 3) / 45) 0 (- 4 / 135)).
  { apply (dlim_ext (fun t => / 45 * ((2 - / 3 * t) * (2 - / 3 * t)))); [intro; field|].
    assert (L : derivable_pt_lim (fun t => 2 - / 3 * t) 0 (0 - / 3 * 1)).
    { apply (derivable_pt_lim_minus (fun _ => 2) (fun t => / 3 * t)); [apply derivable_pt_lim_const|apply derivable_pt_lim_scal, derivable_pt_lim_id]. }
    replace (- 4 / 135) with (/ 45 * ((0 - / 3 * 1) * (2 - / 3 * 0) + (2 - / 3 * 0) * (0 - / 3 * 1))) by field.
    apply derivable_pt_lim_scal. exact (derivable_pt_lim_mult _ _ _ _ _ L L). }
  assert (U := uniqueness_limite _ _ _ _ D' T). lra.
Qed.
Print Assumptions C73_refuted.

(** Hypotheses of the gradient: an autocorrelation parameter across equations, on which delta depends too. *)
Example C73_applies : forall t,
  let phi := fun x i j => if (Nat.eqb i 1 && Nat.eqb j 0)%bool then x else 0 in
  symmetric_weights (M wms) wW /\
  (exists r, 0 < r /\ forall x, Rabs (x - t) < r ->
     inverse_of 1 (information 3 wlag 1 (fun r _ => wX1 r) (fun _ _ => 0) wms wW (phi x))
       (winverse (information 3 wlag 1 (fun r _ => wX1 r) (fun _ _ => 0) wms wW (phi x)))) /\
  (forall i j, (i < 2)%nat -> (j < 2)%nat -> derivable_pt_lim (fun x => phi x i j) t (phi_derivative (Some (1, 0)%nat) i j)) /\
  (forall r, derivable_pt_lim (fun x => wdelta x r) t (wjacobian r)) /\
  gradient 3 wlag 1 1 (fun r _ => wX1 r) (fun _ _ => 0) wms wW winverse (fun x => x) (fun x => x) 1 (phi 1) (wdelta 1) wcosts
    wjacobian (fun _ => 0) (Some (1, 0)%nat) <> 0.
Proof.
  intros t phi.
  assert (I : forall x, information 3 wlag 1 (fun r _ => wX1 r) (fun _ _ => 0) wms wW (phi x) 0 0 = 4 + x * x).
  { intro x. unfold information, ZX, M, wms, moments, side_of, type_of, z. cbn.
    unfold extended_X1, extended_X3, quasi, wW. cbn. ring. }
  split; [intros i j _ _; unfold wW; rewrite Nat.eqb_sym; reflexivity|].
  split.
  { exists 1. split; [lra|]. intros x _ k l Hk Hl. assert (k = 0%nat) by lia. assert (l = 0%nat) by lia. subst. cbn [sumn Nat.eqb].
    unfold winverse. rewrite I. field. nra. }
  split.
  { intros [|[|i]] [|[|j]] Hi Hj; try lia; cbn; solve [apply derivable_pt_lim_id|apply (derivable_pt_lim_const 0)]. }
  split; [intros [|r]; cbn; [apply derivable_pt_lim_id|apply (derivable_pt_lim_const 0)]|].
  set (id_ := fun x : nat -> R => x).
  unfold gradient, mean_G, jacobian, xi, omega. rewrite !Rmult_1_l.
  rewrite (sumn_ext _ _ (fun m => sumn 3 (fun r => jacobian 3 wlag 1 1 (fun r _ => wX1 r) (fun _ _ => 0) wms wW winverse id_ id_ (phi 1) (wdelta 1) wcosts wjacobian (fun _ => 0) (Some (1, 0)%nat) m r * z wms m r) / INR 3 *
    sumn (M wms) (fun m' => wW m m' * ((Zy 3 wlag wms id_ id_ (phi 1) (wdelta 1) wcosts m'
     - sumn 1 (fun k => ZX 3 wlag 1 (fun r _ => wX1 r) (fun _ _ => 0) wms (phi 1) m' k * parameters 3 wlag 1 1 (fun r _ => wX1 r) (fun _ _ => 0) wms wW winverse id_ id_ (phi 1) (wdelta 1) wcosts k)) / INR 3)))).
  2: { intros m _. f_equal. apply sumn_ext. intros m' _. rewrite mean_g_form. reflexivity. }
  unfold jacobian, xi, omega, parameters, winverse. cbn [sumn]. rewrite I.
  unfold ZX, Zy, M, wms, moments, side_of, type_of, z. cbn.
  unfold extended_X1, extended_X3, quasi, phi, wW, id_. cbn. apply Rlt_not_eq. lra.
Qed.

(** Hypotheses of the recovery of draws: any errors follow an autoregression with their own innovations. *)
Example C73_applies_recovers : forall lag phi errors,
  (forall r, autoregressive lag phi (fun r c => innovation lag phi errors c r) errors r) /\ wlag 1 <> 1%nat.
Proof. intros lag phi errors. split; [intros r c; unfold innovation; ring|discriminate]. Qed.

(** Numbers of instruments that match. *)
Example C73_columns_applies : forall a b c : nat -> R,
  list_sum (map snd [(Levels, 1); (Differenced, 2)]%nat) = List.length [a; b; c] /\
  moments [(Levels, 1); (Differenced, 2)]%nat [] [a; b; c] [] = [(Demand, Levels, a); (Demand, Differenced, b); (Demand, Differenced, c)].
Proof. intros. split; reflexivity. Qed.
