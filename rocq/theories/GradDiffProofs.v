(** The analytic gradient with moments in innovations. *)
From Coq Require Import Reals Lra Lia List Bool Arith FunctionalExtensionality.
From Verif Require Import Base DemandModel DemandProofs DemandShares DemandDeriv SupplyModel DerivModel
  MicroModel NestModel GradModel GradSpec GradProofs GradDiffModel.
From Verif Require DiffModel DiffSpec DiffProofs.
Local Open Scope R_scope.

Section Innovations.
  Variables (solve : nat -> solver) (inverse : nat -> (nat -> nat -> R) -> (nat -> nat -> R) * bool) (ec : economy) (im : innovations).
  Variables (delta_of : point -> nat -> nat -> R) (v : point) (p : parameter) (phi : nat -> nat -> R) (keep : bool).
  Let t := value_at v p.
  Hypothesis HS : exact_solve solve.
  Hypothesis HI : exact_inverse inverse.
  Hypothesis HF : refers ec.
  Hypothesis HW : DiffSpec.symmetric_weights (DiffModel.M (in_moments im)) (in_W im).
  Hypothesis HA : let B := DiffModel.information (ec_N ec) (in_lag im) (in_K1 im) (in_X1 im) (in_X3 im) (in_moments im) (in_W im) phi in
    DiffSpec.inverse_of (in_K im) B (in_inverse im B).
  Hypothesis HR : forall s, (s < ec_T ec)%nat -> regular (ec_market ec s) v.
  Hypothesis HP : forall s, (s < ec_T ec)%nat -> in_theta ec (ec_market ec s) v p.
  Variable r : R.
  Hypothesis Hr : 0 < r.
  Hypothesis HC : forall y, Rabs (y - t) < r -> clean solve inverse ec delta_of keep (moved v p y).
  Hypothesis HT : clean solve inverse ec delta_of true v.
  Hypothesis HX : columns_ready solve ec delta_of v p.
  Hypothesis HL : costs_ready solve inverse ec delta_of v.

  Lemma demand_rows_move n : derivable_pt_lim (fun y => demand_rows solve inverse ec delta_of keep (moved v p y) n) t
    (demand_column solve inverse ec delta_of v p n).
  Proof using HS HI HF HR HP Hr HC HT HX HL.
    unfold demand_rows, demand_column. destruct (Nat.ltb_spec n (ec_N ec)) as [L|]; [|apply dlim_const].
    apply (stacked_moves solve inverse ec delta_of (fun _ => p) v 0 keep HS HI HF HR HP r Hr HC HT HX HL n).
    unfold rows. destruct (ec_supply ec); lia.
  Qed.
  Lemma supply_rows_move n : derivable_pt_lim (fun y => supply_rows solve inverse ec delta_of keep (moved v p y) n) t
    (supply_column solve inverse ec delta_of v p n).
  Proof using HS HI HF HR HP Hr HC HT HX HL.
    unfold supply_rows, supply_column. destruct (ec_supply ec && Nat.ltb n (ec_N ec))%bool eqn:E; [|apply dlim_const].
    apply andb_true_iff in E. destruct E as [E L]. apply Nat.ltb_lt in L.
    apply (stacked_moves solve inverse ec delta_of (fun _ => p) v 0 keep HS HI HF HR HP r Hr HC HT HX HL (ec_N ec + n)).
    unfold rows. rewrite E. lia.
  Qed.
  Lemma rows_same : demand_rows solve inverse ec delta_of keep v = demand_rows solve inverse ec delta_of true v /\
    supply_rows solve inverse ec delta_of keep v = supply_rows solve inverse ec delta_of true v.
  Proof using HS HI HF Hr HC HT.
    assert (Q := stacked_same solve inverse ec delta_of (fun _ => p) v 0 keep HS HI HF r Hr HC HT).
    split; apply functional_extensionality; intro n; [unfold demand_rows|unfold supply_rows].
    - destruct (Nat.ltb_spec n (ec_N ec)) as [L|]; [|reflexivity]. apply Q. unfold rows. destruct (ec_supply ec); lia.
    - destruct (ec_supply ec && Nat.ltb n (ec_N ec))%bool eqn:E; [|reflexivity].
      apply andb_true_iff in E. destruct E as [E L]. apply Nat.ltb_lt in L. apply Q. unfold rows. rewrite E. lia.
  Qed.

  Theorem innovations_gradient_exact :
    derivable_pt_lim (fun y => innovations_objective solve inverse ec im delta_of keep (moved v p y) phi) t
      (innovations_gradient solve inverse ec im delta_of v phi p).
  Proof using HS HI HF HW HA HR HP Hr HC HT HX HL.
    assert (D := DiffProofs.gradient_correct (ec_N ec) (in_lag im) (in_K1 im) (in_K im) (in_X1 im) (in_X3 im) (in_moments im) (in_W im)
      (in_inverse im) (in_scale im) (fun _ => phi) (fun y => demand_rows solve inverse ec delta_of keep (moved v p y))
      (fun y => supply_rows solve inverse ec delta_of keep (moved v p y)) None t
      (demand_column solve inverse ec delta_of v p) (supply_column solve inverse ec delta_of v p) HW).
    eapply dlim_eq; [|apply D].
    - unfold innovations_gradient. destruct rows_same as [E1 E2]. unfold t. rewrite moved_own, E1, E2. reflexivity.
    - exists 1. split; [lra|]. intros x _. exact HA.
    - intros i j _ _. apply dlim_const.
    - discriminate.
    - exact demand_rows_move.
    - exact supply_rows_move.
  Qed.
End Innovations.

Lemma autocorrelation_gradient_exact solve inverse ec im delta_of v phi a b :
  DiffSpec.symmetric_weights (DiffModel.M (in_moments im)) (in_W im) ->
  (exists r, 0 < r /\ forall y, Rabs (y - phi a b) < r ->
     let B := DiffModel.information (ec_N ec) (in_lag im) (in_K1 im) (in_X1 im) (in_X3 im) (in_moments im) (in_W im) (phi_with phi a b y) in
     DiffSpec.inverse_of (in_K im) B (in_inverse im B)) ->
  (a < 2)%nat -> (b < 2)%nat ->
  derivable_pt_lim (fun y => innovations_objective solve inverse ec im delta_of true v (phi_with phi a b y)) (phi a b)
    (autocorrelation_gradient solve inverse ec im delta_of v phi a b).
Proof.
  intros HW HA Ha Hb.
  assert (D := DiffProofs.gradient_correct (ec_N ec) (in_lag im) (in_K1 im) (in_K im) (in_X1 im) (in_X3 im) (in_moments im) (in_W im)
    (in_inverse im) (in_scale im) (fun y => phi_with phi a b y) (fun _ => demand_rows solve inverse ec delta_of true v)
    (fun _ => supply_rows solve inverse ec delta_of true v) (Some (a, b)) (phi a b) (fun _ => 0) (fun _ => 0) HW HA).
  eapply dlim_eq; [|apply D].
  - unfold autocorrelation_gradient. f_equal.
    apply functional_extensionality; intro i. apply functional_extensionality; intro j. unfold phi_with.
    destruct (Nat.eqb_spec i a) as [->|]; [|reflexivity]. destruct (Nat.eqb_spec j b) as [->|]; reflexivity.
  - intros i j _ _. unfold phi_with, DiffSpec.phi_derivative. destruct (Nat.eqb i a && Nat.eqb j b)%bool; [apply dlim_id|apply dlim_const].
  - intros i j E. injection E as <- <-. auto.
  - intros n. apply dlim_const.
  - intros n. apply dlim_const.
Qed.
