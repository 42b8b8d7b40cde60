(** Model of displayed results of importance sampling. *)
From Coq Require Import Reals ZArith List Arith.
From Verif Require Import Base SchedModel.
Import ListNotations.
Local Open Scope R_scope.

(** [int] of a number that is not negative. *)
Definition truncate (x : R) : Z := Int_part x.
(** [np.min] and [np.max] of an array that is not empty (0 otherwise, which Python refuses). *)
Definition np_min (l : list R) : R := match l with [] => 0 | x :: l' => fold_right Rmin x l' end.
Definition np_max (l : list R) : R := match l with [] => 0 | x :: l' => fold_right Rmax x l' end.

(** Values in the table that [ImportanceSamplingResults.__str__] displays, but for the time and before they are formatted.
    importance_sampling_results.py 80-91 and 93-116.  Weights of sampled agents are given by market; diagnostics of a market are those of SchedModel. *)
Record diagnostics := mk_diagnostics {
  total_draws : nat; draws_per_market : nat; min_effective : Z; min_for_variance : Z; min_for_skewness : Z; min_weight_sum : R; max_weight_sum : R }.
Definition displayed_diagnostics (draws : nat) (markets : list (list R)) : diagnostics :=
  mk_diagnostics (List.length (concat markets)) draws
    (truncate (np_min (map effective_draws markets))) (truncate (np_min (map effective_draws_for_variance markets)))
    (truncate (np_min (map effective_draws_for_skewness markets))) (np_min (map weight_sum markets)) (np_max (map weight_sum markets)).
