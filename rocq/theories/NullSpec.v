(** When estimated markets are what data say. *)
From Coq Require Import Reals ZArith List Bool Arith.
From Verif Require Import Base FltModel IterModel DemandModel SupplyModel ConvModel NullModel.
Local Open Scope R_scope.

(** Characteristics with random coefficients are formulas evaluated at prices in the data. *)
Definition data_columns (M : full_market) : Prop :=
  forall j k, (j < mJ (fm M))%nat -> (k < fK2 M)%nat -> uses (fX2 M k) = true -> X2_0 M j k = ev (fX2 M k) j (var0 M j).
(** Mean utilities reproduce shares: the share of each product is the average of the probabilities with which agents choose it. *)
Definition reproduces (e : estimated) : Prop :=
  let M := e_market e in
  forall j, (j < mJ (fm M))%nat -> sumn (fI M) (fun i => probs (fm M) (delta0 M) (compute_mu M (X2_0 M)) i j * fw M i) = e_shares e j.
(** Absolute tolerances are positive, and norms are. *)
Record sensible (t : tolerance) : Prop := {
  sn_absolute : exists a, t_atol t = Num a /\ 0 < a;
  sn_relative : exists b, t_rtol t = Num b /\ 0 <= b;
  sn_norm : forall x, vfin x = true -> exists v, t_norm t x = Num v /\ 0 <= v;
  sn_zero : forall x, (forall v, In v x -> v = Num 0) -> t_norm t x = Num 0
}.
(** Routines that stay where they start when nothing changes. *)
Definition stays (iterate : routine) : Prop :=
  forall f x w, (forall log i n, f log i n x = (x, w)) -> vfin x = true -> match w with Some w => vfin w = true /\ length w = length x | None => True end ->
    exists o, iterate f x = Some o /\ o_x o = x /\ o_converged o = true.
