(** Model of moments in innovations and differenced innovations: quasi-differences, the regression that
    concentrates out linear parameters, the objective and its gradient, without micro and covariance
    moments.  Definitions only. *)
From Coq Require Import Reals List Bool Arith.
From Verif Require Import Base.
Import ListNotations.
Local Open Scope nat_scope.

Inductive moment_type := Levels | Innovations | Differenced.

(** [_lags] and [_second_lags].  economy.py 113-116. *)
Definition has_lag (lag : nat -> nat) (r : nat) : bool := negb (Nat.eqb (lag r) r).
Definition has_second_lag (lag : nat -> nat) (r : nat) : bool := has_lag lag r && has_lag lag (lag r).

(** [x - phi * x[lag_indices] - other_phi * other_x[lag_indices]]. *)
Definition quasi (lag : nat -> nat) (x : nat -> R) (phi : R) (other : nat -> R) (other_phi : R) : nat -> R :=
  fun r => (x r - phi * x (lag r) - other_phi * other (lag r))%R.

(** [_compute_difference], and levels, which are not transformed.  economy.py 437-461.  Without a supply
    side, the other variable is zero here. *)
Definition difference (lag : nat -> nat) (ty : moment_type) (x : nat -> R) (phi : R) (other : nat -> R) (other_phi : R) : nat -> R :=
  match ty with
  | Levels => x
  | Innovations => fun r => if has_lag lag r then quasi lag x phi other other_phi r else 0%R
  | Differenced => fun r => if has_second_lag lag r
                            then (quasi lag x phi other other_phi r - quasi lag x phi other other_phi (lag r))%R else 0%R
  end.

(** [_compute_difference_derivative].  economy.py 463-475. *)
Definition difference_derivative (lag : nat -> nat) (ty : moment_type) (x : nat -> R) : nat -> R :=
  match ty with
  | Levels => fun _ => 0%R
  | Innovations => fun r => if has_lag lag r then (- x (lag r))%R else 0%R
  | Differenced => fun r => if has_second_lag lag r then (- (x (lag r) - x (lag (lag r))))%R else 0%R
  end.

Inductive side := Demand | Supply.

(** A variable of one side of the model (the first for demand, the second for supply), differenced with
    parameters from the row of [phi] of that side.  problem.py 1411-1462. *)
Definition difference_side (lag : nat -> nat) (phi : nat -> nat -> R) (s : side) (ty : moment_type) (demand supply : nat -> R) : nat -> R :=
  match s with
  | Demand => difference lag ty demand (phi 0 0) supply (phi 0 1)
  | Supply => difference lag ty supply (phi 1 1) demand (phi 1 0)
  end.

(** Columns of instruments with the side and the type of their moment: [np.split(self.products.ZD, ZD_indices, axis=1)].
    problem.py 1400-1406. *)
Definition moment := (side * moment_type * (nat -> R))%type.
Fixpoint split_columns (s : side) (types : list (moment_type * nat)) (Z : list (nat -> R)) : list moment :=
  match types with
  | [] => []
  | (ty, count) :: rest => map (fun z => (s, ty, z)) (firstn count Z) ++ split_columns s rest (skipn count Z)
  end.
Definition moments (demand_types supply_types : list (moment_type * nat)) (ZD ZS : list (nat -> R)) : list moment :=
  split_columns Demand demand_types ZD ++ split_columns Supply supply_types ZS.

Section Objective.
Variables (N : nat) (lag : nat -> nat).
(** Numbers of concentrated out linear parameters in beta and in all, and their characteristics. *)
Variables (K1 K : nat) (X1 X3 : nat -> nat -> R).
Variable ms : list moment.
Variable W : nat -> nat -> R.
(** The square matrix returned by [approximately_invert], as a function of the one that is to be inverted. *)
Variable inverse : (nat -> nat -> R) -> nat -> nat -> R.
(** Absorption of demand- and supply-side fixed effects: [fun x => x] if there are none. *)
Variables absorb_demand absorb_supply : (nat -> R) -> nat -> R.
Variable scale : R.

Definition M : nat := List.length ms.
Definition side_of (m : nat) : side := fst (fst (nth m ms (Demand, Levels, fun _ => 0%R))).
Definition type_of (m : nat) : moment_type := snd (fst (nth m ms (Demand, Levels, fun _ => 0%R))).
Definition z (m : nat) : nat -> R := snd (nth m ms (Demand, Levels, fun _ => 0%R)).

(** [extended_iv_X1] and [extended_iv_X3].  problem.py 1397-1398. *)
Definition extended_X1 (k : nat) : nat -> R := fun r => if Nat.ltb k K1 then X1 r k else 0%R.
Definition extended_X3 (k : nat) : nat -> R := fun r => if Nat.ltb k K1 then 0%R else X3 r (k - K1).

(** Elements of [Z.T @ X] and of [Z.T @ y]. *)
Definition ZX (phi : nat -> nat -> R) (m k : nat) : R :=
  sumn N (fun r => (z m r * difference_side lag phi (side_of m) (type_of m) (extended_X1 k) (extended_X3 k) r)%R).
Definition Zy (phi : nat -> nat -> R) (delta costs : nat -> R) (m : nat) : R :=
  sumn N (fun r => (z m r * difference_side lag phi (side_of m) (type_of m) (absorb_demand delta) (absorb_supply costs) r)%R).

(** [IV]: [product.T @ W @ product], and parameters.  statistics.py 24-27 and 53-55. *)
Definition information (phi : nat -> nat -> R) (k l : nat) : R :=
  sumn M (fun m => (ZX phi m k * sumn M (fun m' => (W m m' * ZX phi m' l)%R))%R).
Definition parameters (phi : nat -> nat -> R) (delta costs : nat -> R) (k : nat) : R :=
  sumn K (fun l => (inverse (information phi) k l
    * sumn M (fun m => (ZX phi m l * sumn M (fun m' => (W m m' * Zy phi delta costs m')%R))%R))%R).

(** Residuals [y - X @ parameters] of the equation of moment [m].  statistics.py 56. *)
Definition residual (phi : nat -> nat -> R) (delta costs b : nat -> R) (m r : nat) : R :=
  (difference_side lag phi (side_of m) (type_of m) (absorb_demand delta) (absorb_supply costs) r
   - sumn K (fun k => difference_side lag phi (side_of m) (type_of m) (extended_X1 k) (extended_X3 k) r * b k))%R.

(** [mean_g] and the objective.  problem.py 1525-1528. *)
Definition mean_g (phi : nat -> nat -> R) (delta costs : nat -> R) (m : nat) : R :=
  (sumn N (fun r => residual phi delta costs (parameters phi delta costs) m r * z m r) / INR N)%R.
Definition objective (phi : nat -> nat -> R) (delta costs : nat -> R) : R :=
  (scale * sumn M (fun m => mean_g phi delta costs m * sumn M (fun m' => W m m' * mean_g phi delta costs m')))%R.

(** Structural errors [xi] and [omega].  problem.py 1481-1501. *)
Definition xi (phi : nat -> nat -> R) (delta costs : nat -> R) : nat -> R :=
  fun r => (absorb_demand delta r - sumn K (fun k => extended_X1 k r * parameters phi delta costs k))%R.
Definition omega (phi : nat -> nat -> R) (delta costs : nat -> R) : nat -> R :=
  fun r => (absorb_supply costs r - sumn K (fun k => extended_X3 k r * parameters phi delta costs k))%R.

(** One column of Jacobians, with the contribution of phi if the parameter is in row [fst at_phi] and column
    [snd at_phi] of phi.  [jacobians] of delta and of costs are not absorbed without covariance moments.
    problem.py 1371-1388, 1424-1462 and 1503-1516. *)
Definition row_of (s : side) : nat := match s with Demand => 0 | Supply => 1 end.
Definition jacobian (phi : nat -> nat -> R) (delta costs : nat -> R) (xi_jacobian omega_jacobian : nat -> R)
    (at_phi : option (nat * nat)) (m r : nat) : R :=
  (difference_side lag phi (side_of m) (type_of m) xi_jacobian omega_jacobian r
   + match at_phi with
     | None => 0
     | Some (i, j) => if Nat.eqb i (row_of (side_of m))
                      then difference_derivative lag (type_of m) (if Nat.eqb j 0 then xi phi delta costs else omega phi delta costs) r
                      else 0
     end)%R.
(** An element of the gradient.  problem.py 1533-1540. *)
Definition mean_G phi delta costs xi_jacobian omega_jacobian at_phi (m : nat) : R :=
  (sumn N (fun r => jacobian phi delta costs xi_jacobian omega_jacobian at_phi m r * z m r) / INR N)%R.
Definition gradient phi delta costs xi_jacobian omega_jacobian at_phi : R :=
  (scale * (2 * sumn M (fun m => mean_G phi delta costs xi_jacobian omega_jacobian at_phi m
     * sumn M (fun m' => W m m' * mean_g phi delta costs m'))))%R.
End Objective.

(** The validation of moment types: with moments that are not in levels there can be no fixed effects on
    the same side.  problem.py 644-676. *)
Definition in_levels (types : list (moment_type * nat)) : bool :=
  forallb (fun t => match fst t with Levels => true | _ => false end) types.
Definition fixed_effects_allowed (types : list (moment_type * nat)) (E : nat) : bool := in_levels types || Nat.eqb E 0.
