(** Model of the GMM objective and its analytic gradient with covariance moments, as functions of theta.  Definitions
    only; everything else is as in GradModel.

    Source: /repo/pyblp/economies/problem.py 1374-1389, 1465-1494, 1518-1540 and utilities/statistics.py 35-67. *)
From Coq Require Import Reals List Bool Arith.
From Verif Require Import ProgressModel Base DemandModel SupplyModel DerivModel MicroModel NestModel GradModel.
Local Open Scope R_scope.

(** Covariance instruments and [covariance_moments_mean].  primitives.py 95-108, problem.py 540-546. *)
Record covariance_moments := mk_covariance_moments {
  cm_MC : nat;
  cm_ZC : nat -> nat -> R;
  cm_mean : R
}.

Section Covariance.
  Variables (solve : nat -> solver) (inverse : nat -> (nat -> nat -> R) -> (nat -> nat -> R) * bool).
  Variables (ec : economy) (cm : covariance_moments) (delta_of : point -> nat -> nat -> R).

  (** Structural errors: xi, and then omega.  problem.py 1465-1501, statistics.py 53-57. *)
  Definition errors_at (keep : bool) (v : point) : nat -> R :=
    let y := absorbed ec (stacked solve inverse ec delta_of keep v) in
    residual (ec_K ec) (ec_X ec) (iv_parameters (rows ec) (ec_MI ec) (ec_K ec) (ec_X ec) (ec_Z ec) (ec_W ec) (ec_A ec) y) y.

  (** Their Jacobian: that of delta and costs is absorbed and then converted.  problem.py 1374-1389, statistics.py 60-65. *)
  Definition errors_column (theta : nat -> parameter) (v : point) (n p : nat) : R :=
    converted (rows ec) (ec_MI ec) (ec_K ec) (ec_X ec) (ec_Z ec) (ec_W ec) (ec_A ec)
      (fun n p => absorbed ec (stacked_column solve inverse ec delta_of v (theta p)) n) n p.

  (** Covariance moments and their Jacobian.  problem.py 1518-1522. *)
  Definition product_errors (keep : bool) (v : point) (n : nat) : R :=
    errors_at keep v n * errors_at keep v (ec_N ec + n)%nat - cm_mean cm.
  Definition product_column (theta : nat -> parameter) (v : point) (n p : nat) : R :=
    errors_column theta v n p * errors_at true v (ec_N ec + n)%nat + errors_at true v n * errors_column theta v (ec_N ec + n)%nat p.

  (** All moments: demand and supply, covariance, micro.  problem.py 1524-1536. *)
  Definition covariance_moments_at (keep : bool) (v : point) : nat -> R :=
    stack_moments (ec_MI ec) (iv_moment (ec_N ec) (rows ec) (ec_Z ec) (errors_at keep v))
      (stack_moments (cm_MC cm) (iv_moment (ec_N ec) (ec_N ec) (cm_ZC cm) (product_errors keep v)) (micro_at ec delta_of v)).
  Definition covariance_mean_G (theta : nat -> parameter) (v : point) (i p : nat) : R :=
    stack_moments (ec_MI ec) (iv_moment (ec_N ec) (rows ec) (ec_Z ec) (fun n => errors_column theta v n p))
      (stack_moments (cm_MC cm) (iv_moment (ec_N ec) (ec_N ec) (cm_ZC cm) (fun n => product_column theta v n p))
         (fun m => micro_column solve ec delta_of v (theta p) m)) i.
  Definition covariance_objective_at (keep : bool) (v : point) : R :=
    gmm_value (ec_scale ec) (ec_N ec) (ec_MI ec + (cm_MC cm + MM ec)) (ec_W ec) (covariance_moments_at keep v).
  Definition covariance_gradient_at (theta : nat -> parameter) (v : point) (i : nat) : R :=
    gmm_gradient_at (ec_scale ec) (ec_N ec) (ec_MI ec + (cm_MC cm + MM ec)) (ec_W ec) (covariance_moments_at true v)
      (covariance_mean_G theta v) i.
End Covariance.
