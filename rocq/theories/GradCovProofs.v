(** The analytic gradient with covariance moments. *)
From Coq Require Import Reals Lra Lia List Bool Arith FunctionalExtensionality.
From Verif Require Import ProgressModel ProgressSpec ProgressProofs Base DemandModel DemandProofs DemandShares DemandDeriv SupplyModel DerivModel
  MicroModel NestModel GradModel GradCovModel GradSpec GradProofs.
Local Open Scope R_scope.

Section Covariance.
  Variables (solve : nat -> solver) (inverse : nat -> (nat -> nat -> R) -> (nat -> nat -> R) * bool) (ec : economy) (cm : covariance_moments).
  Variables (delta_of : point -> nat -> nat -> R) (theta : nat -> parameter) (v : point) (n0 : nat) (keep : bool).
  Let p := theta n0.
  Let t := value_at v p.
  Hypothesis HS : exact_solve solve.
  Hypothesis HI : exact_inverse inverse.
  Hypothesis HF : refers ec.
  Hypothesis HW : forall i j, (i < ec_MI ec + (cm_MC cm + MM ec))%nat -> (j < ec_MI ec + (cm_MC cm + MM ec))%nat -> ec_W ec i j = ec_W ec j i.
  Hypothesis HY : ec_supply ec = true.
  Hypothesis HR : forall s, (s < ec_T ec)%nat -> regular (ec_market ec s) v.
  Hypothesis HP : forall s, (s < ec_T ec)%nat -> in_theta ec (ec_market ec s) v p.
  Variable r : R.
  Hypothesis Hr : 0 < r.
  Hypothesis HC : forall y, Rabs (y - t) < r -> clean solve inverse ec delta_of keep (moved v p y).
  Hypothesis HT : clean solve inverse ec delta_of true v.
  Hypothesis HX : columns_ready solve ec delta_of v p.
  Hypothesis HL : costs_ready solve inverse ec delta_of v.
  Hypothesis HM : micro_ready ec delta_of v.

  Lemma absorbed_moves n :
    derivable_pt_lim (fun y => absorbed ec (stacked solve inverse ec delta_of keep (moved v p y)) n) t
      (absorbed ec (stacked_column solve inverse ec delta_of v p) n).
  Proof using HS HI HF HR HP Hr HC HT HX HL.
    unfold absorbed. apply (dlim_sumn (rows ec) (fun k y => ec_absorb ec n k * stacked solve inverse ec delta_of keep (moved v p y) k) t
        (fun k => ec_absorb ec n k * stacked_column solve inverse ec delta_of v p k)).
    intros k Hk. apply dlim_scal. exact (stacked_moves solve inverse ec delta_of theta v n0 keep HS HI HF HR HP r Hr HC HT HX HL k Hk).
  Qed.

  Lemma errors_same : errors_at solve inverse ec delta_of keep v = errors_at solve inverse ec delta_of true v.
  Proof using HS HI HF Hr HC HT.
    unfold errors_at.
    replace (absorbed ec (stacked solve inverse ec delta_of keep v)) with (absorbed ec (stacked solve inverse ec delta_of true v)); [reflexivity|].
    apply functional_extensionality; intro n. unfold absorbed. apply sumn_ext. intros k Hk. f_equal. symmetry.
    exact (stacked_same solve inverse ec delta_of theta v n0 keep HS HI HF r Hr HC HT k Hk).
  Qed.

  Lemma errors_move n : (n < rows ec)%nat ->
    derivable_pt_lim (fun y => errors_at solve inverse ec delta_of keep (moved v p y) n) t (errors_column solve inverse ec delta_of theta v n n0).
  Proof using HS HI HF HR HP Hr HC HT HX HL.
    intro Hn.
    assert (D := converted_derivative (rows ec) (ec_MI ec) (ec_K ec) 1 (ec_X ec) (ec_Z ec) (ec_W ec) (ec_A ec)
      (fun n y => absorbed ec (stacked solve inverse ec delta_of keep (moved v p y)) n)
      (fun n _ => absorbed ec (stacked_column solve inverse ec delta_of v p) n) (fun _ => 1) t).
    eapply dlim_eq; [|apply (D (fun n _ => dlim_eq _ _ _ _ (eq_sym (eq_trans (Rplus_0_l _) (Rmult_1_r _))) (absorbed_moves n)) n Hn)].
    cbn [sumn]. rewrite Rplus_0_l, Rmult_1_r. reflexivity.
  Qed.

  Lemma moment_moves N0 rows0 Z (u : R -> nat -> R) du i :
    (forall n, (n < rows0)%nat -> derivable_pt_lim (fun y => u y n) t (du n)) ->
    derivable_pt_lim (fun y => iv_moment N0 rows0 Z (u y) i) t (iv_moment N0 rows0 Z du i).
  Proof using.
    intro H. unfold iv_moment, Rdiv. eapply dlim_eq; [|apply (dlim_mult (fun y => sumn rows0 (fun n => Z n i * u y n)) (fun _ => / INR N0));
      [apply (dlim_sumn rows0 (fun n y => Z n i * u y n) t (fun n => Z n i * du n)); intros n Hn; apply dlim_scal, H, Hn|apply dlim_const]].
    ring.
  Qed.

  Theorem covariance_gradient_exact :
    derivable_pt_lim (fun y => covariance_objective_at solve inverse ec cm delta_of keep (moved v p y)) t
      (covariance_gradient_at solve inverse ec cm delta_of theta v n0).
  Proof using HS HI HF HW HY HR HP Hr HC HT HX HL HM.
    assert (Dg : forall i, (i < ec_MI ec + (cm_MC cm + MM ec))%nat ->
      derivable_pt_lim (fun y => covariance_moments_at solve inverse ec cm delta_of keep (moved v p y) i) t
        (sumn 1 (fun _ => covariance_mean_G solve inverse ec cm delta_of theta v i n0 * 1))).
    { intros i Hi. eapply dlim_eq; [cbn [sumn]; rewrite Rplus_0_l, Rmult_1_r; reflexivity|].
      unfold covariance_moments_at, covariance_mean_G, stack_moments. destruct (Nat.ltb_spec i (ec_MI ec)) as [L|L].
      - apply moment_moves. exact errors_move.
      - destruct (Nat.ltb_spec (i - ec_MI ec) (cm_MC cm)) as [L2|L2].
        + apply moment_moves. intros n Hn. unfold product_errors, product_column.
          assert (Hn1 : (n < rows ec)%nat) by (unfold rows; rewrite HY; lia).
          assert (Hn2 : (ec_N ec + n < rows ec)%nat) by (unfold rows; rewrite HY; lia).
          eapply dlim_eq; [|apply dlim_minus; [apply (dlim_mult _ _ _ _ _ (errors_move n Hn1) (errors_move _ Hn2))|apply dlim_const]].
          cbv beta. unfold t. rewrite moved_own, errors_same. ring.
        + exact (micro_moves solve inverse ec delta_of theta v n0 keep HS HF HR HP r Hr HC HX HM (i - ec_MI ec - cm_MC cm)%nat ltac:(lia)). }
    assert (D := gmm_directional (ec_scale ec) (ec_N ec) (ec_MI ec + (cm_MC cm + MM ec)) 1 (ec_W ec)
      (fun i y => covariance_moments_at solve inverse ec cm delta_of keep (moved v p y) i)
      (fun i _ => covariance_mean_G solve inverse ec cm delta_of theta v i n0) (fun _ => 1) t HW Dg).
    eapply dlim_eq; [|exact D]. cbn [sumn]. rewrite Rplus_0_l, Rmult_1_r.
    unfold covariance_gradient_at, gmm_gradient_at. f_equal. f_equal. apply sumn_ext. intros i _. f_equal. apply sumn_ext. intros j _. f_equal.
    unfold covariance_moments_at, product_errors. unfold t. rewrite moved_own, errors_same. reflexivity.
  Qed.
End Covariance.
