(** Model of the GMM objective and its analytic gradient with moments in innovations, as functions of theta: rows that
    GradModel computes from markets enter the moments of DiffModel.  There are no micro moments and no absorbed fixed
    effects.  Definitions only.

    Source: /repo/pyblp/economies/problem.py 1351-1540. *)
From Coq Require Import Reals List Bool Arith.
From Verif Require Import Base SupplyModel GradModel.
From Verif Require DiffModel.
Local Open Scope R_scope.

(** Lags, characteristics whose parameters are concentrated out, instruments with the side and type of their moments,
    weights and the inverse of DiffModel. *)
Record innovations := mk_innovations {
  in_lag : nat -> nat;
  in_K1 : nat;
  in_K : nat;
  in_X1 : nat -> nat -> R;
  in_X3 : nat -> nat -> R;
  in_moments : list DiffModel.moment;
  in_W : nat -> nat -> R;
  in_inverse : (nat -> nat -> R) -> nat -> nat -> R;
  in_scale : R
}.

Section Innovations.
  Variables (solve : nat -> solver) (inverse : nat -> (nat -> nat -> R) -> (nat -> nat -> R) * bool).
  Variables (ec : economy) (im : innovations) (delta_of : point -> nat -> nat -> R).

  (** [iv_delta] and [iv_tilde_costs] of all rows.  Other rows are not used. *)
  Definition demand_rows (keep : bool) (v : point) (n : nat) : R :=
    if Nat.ltb n (ec_N ec) then stacked solve inverse ec delta_of keep v n else 0.
  Definition supply_rows (keep : bool) (v : point) (n : nat) : R :=
    if (ec_supply ec && Nat.ltb n (ec_N ec))%bool then stacked solve inverse ec delta_of keep v (ec_N ec + n) else 0.
  (** Columns of their Jacobians. *)
  Definition demand_column (v : point) (p : parameter) (n : nat) : R :=
    if Nat.ltb n (ec_N ec) then stacked_column solve inverse ec delta_of v p n else 0.
  Definition supply_column (v : point) (p : parameter) (n : nat) : R :=
    if (ec_supply ec && Nat.ltb n (ec_N ec))%bool then stacked_column solve inverse ec delta_of v p (ec_N ec + n) else 0.

  Definition innovations_objective (keep : bool) (v : point) (phi : nat -> nat -> R) : R :=
    DiffModel.objective (ec_N ec) (in_lag im) (in_K1 im) (in_K im) (in_X1 im) (in_X3 im) (in_moments im) (in_W im) (in_inverse im)
      (fun x => x) (fun x => x) (in_scale im) phi (demand_rows keep v) (supply_rows keep v).
  (** An element of the gradient for a parameter other than phi, ... *)
  Definition innovations_gradient (v : point) (phi : nat -> nat -> R) (p : parameter) : R :=
    DiffModel.gradient (ec_N ec) (in_lag im) (in_K1 im) (in_K im) (in_X1 im) (in_X3 im) (in_moments im) (in_W im) (in_inverse im)
      (fun x => x) (fun x => x) (in_scale im) phi (demand_rows true v) (supply_rows true v) (demand_column v p) (supply_column v p) None.
  (** ... and for an element of phi, which moves neither mean utilities nor costs (market.py 965-1002, 1015-1036). *)
  Definition autocorrelation_gradient (v : point) (phi : nat -> nat -> R) (a b : nat) : R :=
    DiffModel.gradient (ec_N ec) (in_lag im) (in_K1 im) (in_K im) (in_X1 im) (in_X3 im) (in_moments im) (in_W im) (in_inverse im)
      (fun x => x) (fun x => x) (in_scale im) phi (demand_rows true v) (supply_rows true v) (fun _ => 0) (fun _ => 0) (Some (a, b)).
End Innovations.

(** phi with one element replaced. *)
Definition phi_with (phi : nat -> nat -> R) (a b : nat) (y : R) (i j : nat) : R :=
  if (Nat.eqb i a && Nat.eqb j b)%bool then y else phi i j.
