(** Model of the demand side of a single market.

    Source: /repo/pyblp/markets/market.py and /repo/pyblp/economies/economy.py.
    Definitions only; the proofs are in DemandProofs.v. *)
From Coq Require Import Reals List Bool Arith Ascii String.
From Verif Require Import Base.
Import ListNotations.
Local Open Scope R_scope.

(** What [Market.__init__] stores and the demand functions use.
    pyblp/markets/market.py 114-158.  Arrays of shape (J, 1) are functions of the product index;
    [gid j] is the position of product j's nesting ID among the sorted distinct nesting IDs of the
    market ([Groups.codes], utilities/basics.py 490-532, modelled in BasicsModel.v);
    [grho h] is [self.group_rho[h]] and [self.rho] is its expansion (146-158).
    [rho_multi] is [self.rho_size > 1]; H = 0 means that there is no nesting. *)
Record market := mk_market {
  mJ : nat;
  mH : nat;
  gid : nat -> nat;
  rho_multi : bool;
  grho : nat -> R;
  eps_scale : R
}.

(** [self.rho], expanded to products.  pyblp/markets/market.py 151-155. *)
Definition rho (m : market) (j : nat) : R := grho m (gid m j).

(** [self.groups.sum(x)]: sum over the products of group h.  utilities/basics.py 514-519. *)
Definition gsum (m : market) (x : nat -> R) (h : nat) : R :=
  sumn (mJ m) (fun j => if Nat.eqb (gid m j) h then x j else 0).

(** The optional arguments of [compute_probabilities] that shrink the choice set
    (market.py 360-374, 414-432).  [c_availability] is this agent's row of availability,
    [c_eliminate] is [eliminate_product], and [c_eliminate_ids] is the mask
    [product_ids[:, product_ids_index] == eliminate_product_id]. *)
Record choice := mk_choice {
  c_eliminate_outside : bool;
  c_availability : option (nat -> R);
  c_eliminate : option nat;
  c_eliminate_ids : option (nat -> bool)
}.

Definition full_choice : choice := mk_choice false None None None.

(** market.py 418-432: availability, then elimination of one product, then elimination by ID. *)
Definition restrict_choice (c : choice) (exp_utilities : nat -> R) : nat -> R :=
  let e1 := match c_availability c with
            | Some a => fun j => exp_utilities j * a j
            | None => exp_utilities
            end in
  let e2 := match c_eliminate c with
            | Some k => fun j => if Nat.eqb j k then 0 else e1 j
            | None => e1
            end in
  match c_eliminate_ids c with
  | Some mask => fun j => if mask j then 0 else e2 j
  | None => e2
  end.

(** market.py 404-416: [scale], for group h (without nesting there is one scale; any h will do). *)
Definition scale (m : market) (c : choice) (reduction : option R) (h : nat) : R :=
  if c_eliminate_outside c then 0
  else match reduction with
       | None => 1
       | Some r => if Nat.eqb (mH m) 0 then exp (- r) else exp (- r * (1 - grho m h))
       end.

(** market.py 405-412: [scale_weights[a, b]]; [group_rho.T - group_rho] has
    [group_rho[b] - group_rho[a]] in row a and column b. *)
Definition scale_weights (m : market) (reduction : option R) (a b : nat) : R :=
  match reduction with
  | None => 1
  | Some r =>
      if Nat.eqb (mH m) 0 then 1
      else if rho_multi m then exp (- r * (grho m b - grho m a)) else 1
  end.

(** [np.exp(np.log(x) * a)] with non-finite results replaced by zero, for x >= 0.
    market.py 444-447: log(0) is -inf, and exp(-inf * a) is 0, nan or inf, so the result is 0. *)
Definition exp_log_mult (x a : R) : R := if Rlt_dec 0 x then exp (ln x * a) else 0.

(** [x / y] with non-finite results replaced by zero.  market.py 445-448. *)
Definition div_or_zero (x y : R) : R := if Req_EM_T y 0 then 0 else x / y.

(** market.py 434-456: from exponentiated utilities to probabilities and conditionals.
    Division by a zero total (possible only when the outside option and all products are
    eliminated) is NaN in the code; theorems exclude it. *)
Definition finish_probabilities (m : market) (c : choice) (reduction : option R)
    (numerator : option (nat -> R)) (exp_utilities0 : nat -> R)
    : (nat -> R) * option (nat -> R) :=
  let exp_utilities := restrict_choice c exp_utilities0 in
  if Nat.eqb (mH m) 0 then
    let num := match numerator with Some n => n | None => exp_utilities end in
    (fun j => num j / (scale m c reduction 0 + sumn (mJ m) exp_utilities), None)
  else
    let exp_inclusives := gsum m exp_utilities in
    let exp_weighted_inclusives := fun h => exp_log_mult (exp_inclusives h) (1 - grho m h) in
    let conditionals := fun j => div_or_zero (exp_utilities j) (exp_inclusives (gid m j)) in
    let marginals := fun h =>
      exp_weighted_inclusives h /
      (scale m c reduction h
       + sumn (mH m) (fun b => scale_weights m reduction h b * exp_weighted_inclusives b)) in
    (fun j => conditionals j * marginals (gid m j), Some conditionals).

(** market.py 392-403 with linear=True: utilities, before any reduction.  The division by
    [epsilon_scale] happens only when it differs from one. *)
Definition scaled_utilities (m : market) (delta mu : nat -> R) : nat -> R :=
  fun j =>
    let u := delta j + mu j in
    let u := if Nat.eqb (mH m) 0 then u else u / (1 - rho m j) in
    if Req_EM_T (eps_scale m) 1 then u else u / eps_scale m.

(** market.py 399-401: [np.clip(utilities.max(axis=0), 0, None)].  [pred (mJ m)] because
    [maxn n] ranges over n+1 entries; a market has at least one product. *)
Definition utility_reduction (m : market) (u : nat -> R) : R := Rmax (maxn (pred (mJ m)) u) 0.

(** [compute_probabilities] with linear=True, for one agent (one column of mu).
    market.py 360-456. *)
Definition probabilities_linear (m : market) (c : choice) (safe : bool) (delta mu : nat -> R)
    : (nat -> R) * option (nat -> R) :=
  let u := scaled_utilities m delta mu in
  if safe then
    let r := utility_reduction m u in
    finish_probabilities m c (Some r) None (fun j => exp (u j - r))
  else finish_probabilities m c None None (fun j => exp (u j)).

(** [compute_probabilities] with linear=False: delta and mu are already exponentiated, and any
    utility reduction has already been applied by the caller.  market.py 385-391. *)
Definition probabilities_nonlinear (m : market) (c : choice) (reduction : option R)
    (numerator : option (nat -> R)) (exp_delta exp_mu : nat -> R)
    : (nat -> R) * option (nat -> R) :=
  finish_probabilities m c reduction numerator
    (fun j => let e := exp_delta j * exp_mu j in
              if Nat.eqb (mH m) 0 then e else Rpower e (1 / (1 - rho m j))).

(** Agents of a market: how many, their integration weights, and their mu (column i of mu). *)
Record agents := mk_agents {
  aI : nat;
  aw : nat -> R;
  amu : nat -> nat -> R
}.

(** [probabilities @ self.agents.weights].  market.py 577, 594. *)
Definition market_shares (m : market) (a : agents) (safe : bool) (delta : nat -> R) (j : nat) : R :=
  sumn (aI a) (fun i => fst (probabilities_linear m full_choice safe delta (amu a i)) j * aw a i).

(** [clip_shares], with an infinite bound written [None].  Returns the clipped share and whether
    it was clipped.  market.py 548-571. *)
Definition clip_share (bounds : option R * option R) (s : R) : R * bool :=
  match bounds with
  | (Some lb, Some ub) =>
      let small := if Rlt_dec s lb then true else false in
      let s1 := if small then lb else s in
      let large := if Rlt_dec ub s1 then true else false in
      ((if large then ub else s1), orb small large)
  | (Some lb, None) => if Rlt_dec s lb then (lb, true) else (s, false)
  | (None, Some ub) => if Rlt_dec ub s then (ub, true) else (s, false)
  | (None, None) => (s, false)
  end.

(** The linear contraction, without and with nesting, except for its Jacobian and the display.
    market.py 573-606. *)
Definition contraction (m : market) (a : agents) (safe : bool) (bounds : option R * option R)
    (shares : nat -> R) (x : nat -> R) : nat -> R :=
  fun j =>
    let s := fst (clip_share bounds (market_shares m a safe x j)) in
    if Nat.eqb (mH m) 0 then x j + ln (shares j) - ln s
    else x j + (ln (shares j) - ln s) * (1 - rho m j).

(** Which shares were clipped at the last evaluation.  market.py 548-571. *)
Definition clipped_shares (m : market) (a : agents) (safe : bool) (bounds : option R * option R)
    (x : nat -> R) : nat -> bool :=
  fun j => snd (clip_share bounds (market_shares m a safe x j)).

(** The nonlinear contraction on exponentiated delta.  market.py 610-657 (without Jacobians).
    Without nesting the numerator is exp_mu, so share_ratios are shares divided by exp_delta. *)
Definition nonlinear_probabilities (m : market) (a : agents) (safe : bool)
    (numerator : bool) (x : nat -> R) (i : nat) : nat -> R :=
  let mu := amu a i in
  let r := Rmax (maxn (pred (mJ m)) mu) 0 in
  let exp_mu := if safe then fun j => exp (mu j - r) else fun j => exp (mu j) in
  fst (probabilities_nonlinear m full_choice (if safe then Some r else None)
         (if numerator then Some exp_mu else None) x exp_mu).

Definition nonlinear_contraction (m : market) (a : agents) (safe : bool)
    (shares : nat -> R) (x : nat -> R) : nat -> R :=
  fun j =>
    if Nat.eqb (mH m) 0 then
      shares j / sumn (aI a) (fun i => nonlinear_probabilities m a safe true x i j * aw a i)
    else
      x j * Rpower (shares j / sumn (aI a) (fun i => nonlinear_probabilities m a safe false x i j * aw a i))
                   (1 - rho m j).

(** The closed form used when there is no heterogeneity: [Market.compute_delta] (market.py 472-488)
    and, market by market, [Economy._compute_logit_delta] (economies/economy.py 410-435). *)
Definition closed_form_delta (m : market) (shares : nat -> R) : nat -> R :=
  fun j =>
    let d := ln (shares j) - ln (1 - sumn (mJ m) shares) in
    let d := if Nat.eqb (mH m) 0 then d
             else d - rho m j * (ln (shares j) - ln (gsum m shares (gid m j))) in
    if Req_EM_T (eps_scale m) 1 then d else d * eps_scale m.

(** Python's [sub in s] for strings. *)
Fixpoint prefixb (p s : string) : bool :=
  match p, s with
  | EmptyString, _ => true
  | String a p', String b s' => andb (Ascii.eqb a b) (prefixb p' s')
  | String _ _, EmptyString => false
  end.

Fixpoint contains (sub s : string) : bool :=
  orb (prefixb sub s) (match s with EmptyString => false | String _ s' => contains sub s' end).

(** Which contraction is iterated.  market.py 543-545 and 608-625. *)
Inductive fp_branch := LinearFP (safe : bool) | NonlinearFP (safe : bool).

Definition compute_delta_branch (fp_type : string) : fp_branch :=
  if contains "linear" fp_type then LinearFP (contains "safe" fp_type)
  else NonlinearFP (contains "safe" fp_type).

(** [Economy._validate_fp_type].  economies/economy.py 354-359. *)
Definition valid_fp_type (eps1 : bool) (fp_type : string) : bool :=
  existsb (String.eqb fp_type) ["safe_linear"; "linear"; "safe_nonlinear"; "nonlinear"]%string
  && (eps1 || negb (existsb (String.eqb fp_type) ["safe_nonlinear"; "nonlinear"]%string)).
