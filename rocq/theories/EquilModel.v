(** Model of how [Market.compute_equilibrium_prices] runs an iteration routine on the zeta-markup
    contraction.  Definitions only. *)
From Coq Require Import Reals List Bool Arith.
From Verif Require Import Base FltModel IterModel DemandModel SupplyModel ConvModel.
Import ListNotations.
Local Open Scope R_scope.

(** The function given to the routine: updated prices and norm weights, for costs that do not depend
    on shares, without Jacobians.  market.py 813-856 and 885-886; the routine flattens both
    (configurations/iteration.py 269-286).  As in [delta_function], values that are not finite are
    mapped to NaN altogether; the theorems are about finite values. *)
Definition prices_function (M : full_market) (ownership : nat -> nat -> R) (costs : nat -> R) : contraction_fn :=
  fun _ _ _ x =>
    if vfin x then (flat (mJ (fm M)) (price_contraction M ownership costs (column x)),
                    Some (flat (mJ (fm M)) (price_weights M (column x))))
    else (repeat NaN (mJ (fm M)), Some (repeat NaN (mJ (fm M)))).

(** [compute_equilibrium_prices] with the 'simple' routine: initial prices are the observed ones unless
    others are given.  market.py 736-750, 887-892. *)
Definition equilibrium_prices (M : full_market) (ownership : nat -> nat -> R) (costs : nat -> R)
    (t : tolerance) (max_evaluations : nat) (prices : option (nat -> R)) : option outcome :=
  let start := match prices with Some p => p | None => var0 M end in
  simple_iterator (prices_function M ownership costs) t max_evaluations (flat (mJ (fm M)) start).
