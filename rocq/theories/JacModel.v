(** Model of the Jacobians that iteration routines receive with each evaluation of a fixed point.
    Source: /repo/pyblp/markets/market.py.  Definitions only.  Arrays of shape (J, I) are indexed agent
    first.  The Jacobian of the linear contraction without clipping is [DerivModel.contraction_jacobian]. *)
From Coq Require Import Reals List Bool Arith.
From Verif Require Import Base DemandModel SupplyModel DerivModel EndoModel.
Local Open Scope R_scope.

(** The Jacobian of the linear contraction, which divides by shares after these were clipped.
    market.py 573-606. *)
Definition clipped_jacobian (m : market) (a : agents) (safe : bool) (bounds : option R * option R)
    (x : nat -> R) (j k : nat) : R :=
  let P := fun i j => fst (probabilities_linear m full_choice safe x (amu a i)) j in
  let C := fun i j => match snd (probabilities_linear m full_choice safe x (amu a i)) with Some c => c j | None => 0 end in
  let shares := fst (clip_share bounds (market_shares m a safe x j)) in
  let weighted := fun i k => aw a i * P i k in
  if Nat.eqb (mH m) 0 then sumn (aI a) (fun i => P i j * weighted i k) / shares
  else ((1 - rho m j) * sumn (aI a) (fun i => P i j * weighted i k)
        + rho m j * membership m j k * sumn (aI a) (fun i => C i j * weighted i k)) / shares.

(** Conditional probabilities in the nonlinear contraction.  market.py 610-625, 646. *)
Definition nonlinear_conditionals (m : market) (a : agents) (safe : bool) (x : nat -> R) (i j : nat) : R :=
  let mu := amu a i in
  let r := Rmax (maxn (pred (mJ m)) mu) 0 in
  let exp_mu := if safe then fun j => exp (mu j - r) else fun j => exp (mu j) in
  match snd (probabilities_nonlinear m full_choice (if safe then Some r else None) None x exp_mu) with
  | Some c => c j
  | None => 0
  end.

(** The Jacobian of the nonlinear contraction: entry (j, k) of [x / x0.T * (...) / shares], in which x
    is the new value.  market.py 627-657. *)
Definition nonlinear_jacobian (m : market) (a : agents) (safe : bool) (shares x0 : nat -> R) (j k : nat) : R :=
  let x := nonlinear_contraction m a safe shares x0 in
  if Nat.eqb (mH m) 0 then
    let ratios := nonlinear_probabilities m a safe true x0 in
    let P := fun i j => x0 j * ratios i j in
    let s := x0 j * sumn (aI a) (fun i => ratios i j * aw a i) in
    x j / x0 k * sumn (aI a) (fun i => P i j * (aw a i * P i k)) / s
  else
    let P := nonlinear_probabilities m a safe false x0 in
    let C := nonlinear_conditionals m a safe x0 in
    let s := sumn (aI a) (fun i => P i j * aw a i) in
    x j / x0 k * ((1 - rho m j) * sumn (aI a) (fun i => P i j * (aw a i * P i k))
                  + rho m j * membership m j k * sumn (aI a) (fun i => C i j * (aw a i * P i k))) / s.

(** [get_derivatives] and [get_second_derivatives]: derivatives of utilities at the data's prices are
    reused if no symbolic derivative mentions prices.  market.py 754-765.  [mentions second c] is what
    sympy says of column c (its free symbols). *)
Definition any_mentions (M : full_market) (mentions : bool -> column -> bool) (second : bool) : bool :=
  existsb (fun k => mentions second (fX1 M k)) (seq 0 (fK1 M))
  || existsb (fun k => mentions second (fX2 M k)) (seq 0 (fK2 M)).
Definition reused_derivatives (M : full_market) (mentions : bool -> column -> bool) (second : bool) (x : nat -> R) :
    nat -> nat -> R :=
  utility_derivatives M second (if any_mentions M mentions second then x else var0 M).

(** [compute_costs_derivatives(costs, 'shares', shares)] and [compute_X3_derivatives].
    market.py 320-328, 349-358. *)
Definition costs_derivatives (S : supply) (costs shares : nat -> R) (j : nat) : R :=
  let d := sumn (sK3 S) (fun k => (if uses (sX3 S k) then dv1 (sX3 S k) j (shares j) else 0) * sgamma S k) in
  match stype S with LinearCosts => d | LogCosts => d * costs j end.

Section PriceJacobian.
  Variables (constant_costs : bool) (M : full_market) (mentions : bool -> column -> bool).
  Variables (ownership : nat -> nat -> R) (S : supply) (shares0 costs x : nat -> R).
  Let J := mJ (fm M).
  Let P := probs (fm M) (update_delta M x) (update_mu M x).
  Let C := conds (fm M) (update_delta M x) (update_mu M x).
  Let U := reused_derivatives M mentions false x.
  Let U2 := reused_derivatives M mentions true x.
  Let shares := shares_at M x.
  Let updated_costs := costs_given constant_costs M S shares0 costs x.
  Let lamda := capital_lamda (fm M) (fI M) (fw M) P U.
  Let gamma := capital_gamma (fm M) (fI M) (fw M) P C U.

  (** The updated prices, with reused derivatives.  market.py 813-853. *)
  Definition updated_prices (j : nat) : R :=
    updated_costs j
    + (lamda_inv (lamda j) * sumn J (fun k => ownership k j * gamma k j * (x k - updated_costs k))
       - lamda_inv (lamda j) * shares j).

  (** market.py 850-857. *)
  Definition shares_by_prices (j l : nat) : R := (if Nat.eqb j l then lamda j else 0) - gamma j l.
  Definition costs_by_prices (j l : nat) : R :=
    if constant_costs then 0 else costs_derivatives S updated_costs shares j * shares_by_prices j l.
  Definition margin_by_prices (j l : nat) : R := (if Nat.eqb j l then 1 else 0) - costs_by_prices j l.

  (** market.py 859-876: the Jacobian of zeta.  The lambda matrices are diagonal, so that products with
      them act on rows; arrays with an added axis hold the derivative with respect to price l first. *)
  Definition lamda_inv_tensor (l j : nat) : R :=
    - (lamda_inv (lamda j) * capital_lamda_tensor (fm M) (fI M) (fw M) P C U U2 j l * lamda_inv (lamda j)).
  Definition gamma_margin (j : nat) : R := sumn J (fun k => ownership k j * gamma k j * (x k - updated_costs k)).
  Definition gamma_margin_tensor (l j : nat) : R :=
    sumn J (fun k => ownership k j * capital_gamma_tensor (fm M) (fI M) (fw M) P C U U2 k j l * (x k - updated_costs k))
    + sumn J (fun k => ownership k j * gamma k j * margin_by_prices k l).
  Definition zeta_jacobian (l j : nat) : R :=
    lamda_inv_tensor l j * gamma_margin j - lamda_inv_tensor l j * shares j
    + lamda_inv (lamda j) * gamma_margin_tensor l j - lamda_inv (lamda j) * shares_by_prices j l.

  (** market.py 878-883. *)
  Definition prices_jacobian (j l : nat) : R :=
    if constant_costs then zeta_jacobian l j else zeta_jacobian l j + costs_by_prices j l.
End PriceJacobian.
