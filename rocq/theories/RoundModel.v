(** Model of choice probabilities and of the contraction in floating point arithmetic with rounding, overflow and
    underflow.  Signed zeros are not modelled.  Definitions only.

    Source: /repo/pyblp/markets/market.py 360-456 and 542-609. *)
From Coq Require Import Reals List Bool Arith.
From Verif Require Import FltModel IterModel.
Import ListNotations.
Local Open Scope R_scope.

(** A rounding function, the largest finite number, and approximations of the exponential and of the logarithm. *)
Record arithmetic := mk_arithmetic { rnd : R -> R; omega : R; Exp : R -> R; Log : R -> R }.

(** The order in which NumPy and BLAS add up numbers, which depends on sizes, memory layouts and hardware.  Products in
    dot products are rounded (no fused multiply-add). *)
Inductive tree := Leaf (i : nat) | Node (l r : tree).
Fixpoint leaves (t : tree) : list nat := match t with Leaf i => [i] | Node l r => leaves l ++ leaves r end.

Section Arithmetic.
  Variable A : arithmetic.

  Definition round (x : flt) : flt :=
    match x with
    | Num r => if Rlt_dec (omega A) (rnd A r) then PInf else if Rlt_dec (rnd A r) (- omega A) then NInf else Num (rnd A r)
    | s => s
    end.
  Definition radd (x y : flt) : flt := round (fadd x y).
  Definition rsub (x y : flt) : flt := round (fsub x y).
  Definition rmul (x y : flt) : flt := round (fmul x y).
  Definition rdiv (x y : flt) : flt := round (fdiv x y).
  (** [np.exp] and [np.log]. *)
  Definition rexp (x : flt) : flt :=
    match x with Num r => round (Num (Exp A r)) | PInf => PInf | NInf => Num 0 | NaN => NaN end.
  Definition rlog (x : flt) : flt :=
    match x with
    | Num r => if Rlt_dec r 0 then NaN else if Req_EM_T r 0 then NInf else round (Num (Log A r))
    | PInf => PInf
    | _ => NaN
    end.
  Fixpoint rsum (t : tree) (x : nat -> flt) : flt :=
    match t with Leaf i => x i | Node l r => radd (rsum l x) (rsum r x) end.

  (** [utilities.max(axis=0)]. *)
  Fixpoint maximum (J : nat) (u : nat -> flt) : flt :=
    match J with O => NInf | S J' => fmax (maximum J' u) (u J') end.

  Section Market.
    (** Number of products, the order in which they are added up, those in the choice set, whether the outside option
        is in it, and utilities of one agent: [delta + mu], scaled if they are nested or if epsilon is scaled. *)
    Variables (J : nat) (t : tree) (included : nat -> bool) (outside : bool) (u : nat -> flt).

    (** Lines 405-437 if probabilities are computed safely, and otherwise. *)
    Definition reduction : flt := fmax (Num 0) (maximum J u).
    Definition exp_utility (safe : bool) (j : nat) : flt :=
      if included j then rexp (if safe then rsub (u j) reduction else u j) else Num 0.
    Definition outside_scale (safe : bool) : flt :=
      if outside then if safe then rexp (fneg reduction) else Num 1 else Num 0.

    (** Line 443. *)
    Definition probability (safe : bool) (j : nat) : flt :=
      rdiv (exp_utility safe j) (radd (outside_scale safe) (rsum t (exp_utility safe))).

    (** Nesting, with groups of products, orders in which the products of a group and groups are added up, and whether
        groups have different nesting parameters.  Lines 413-419 and 447-456. *)
    Variables (group : nat -> nat) (group_tree : nat -> tree) (groups_tree : tree) (group_rho : nat -> R) (several : bool).
    Definition dampener (h : nat) : flt := rsub (Num 1) (Num (group_rho h)).
    Definition nested_scale (h : nat) : flt := if outside then rexp (rmul (fneg reduction) (dampener h)) else Num 0.
    Definition scale_weight (h h' : nat) : flt :=
      if several then rexp (rmul (fneg reduction) (rsub (Num (group_rho h')) (Num (group_rho h)))) else Num 1.
    Definition finite_or_zero (x : flt) : flt := if ffin x then x else Num 0.
    Definition inclusive (h : nat) : flt := rsum (group_tree h) (exp_utility true).
    Definition weighted_inclusive (h : nat) : flt := finite_or_zero (rexp (rmul (rlog (inclusive h)) (dampener h))).
    Definition conditional (j : nat) : flt := finite_or_zero (rdiv (exp_utility true j) (inclusive (group j))).
    Definition marginal (h : nat) : flt :=
      rdiv (weighted_inclusive h) (radd (nested_scale h) (rsum groups_tree (fun h' => rmul (scale_weight h h') (weighted_inclusive h')))).
    Definition nested_probability (j : nat) : flt := rmul (conditional j) (marginal (group j)).
  End Market.

  (** Linear contractions, for agents [i] with mu and integration weights, without nesting and with it.  Bounds on shares
      are those that are finite.  Jacobians and displays are left out.  Lines 391-400 and 542-608. *)
  Section Contraction.
    Variables (J : nat) (t agents : tree) (safe : bool) (mu : nat -> nat -> flt) (weights shares : nat -> flt) (lower upper : option flt).
    Variables (group : nat -> nat) (group_tree : nat -> tree) (groups_tree : tree) (group_rho : nat -> R) (several : bool).
    Definition utility (x : nat -> flt) (i j : nat) : flt := radd (x j) (mu i j).
    Definition nested_utility (x : nat -> flt) (i j : nat) : flt := rdiv (utility x i j) (dampener group_rho (group j)).
    Definition choice (x : nat -> flt) (i j : nat) : flt := probability J t (fun _ => true) true (utility x i) safe j.
    Definition nested_choice (x : nat -> flt) (i j : nat) : flt :=
      nested_probability J (fun _ => true) true (nested_utility x i) group group_tree groups_tree group_rho several j.
    Definition market_share (choices : nat -> nat -> flt) (j : nat) : flt := rsum agents (fun i => rmul (choices i j) (weights i)).
    Definition clip_below (s : flt) : flt := match lower with Some b => if fltb s b then b else s | None => s end.
    Definition clip_above (s : flt) : flt := match upper with Some b => if fltb b s then b else s | None => s end.
    Definition log_share (choices : nat -> nat -> flt) (j : nat) : flt := rlog (clip_above (clip_below (market_share choices j))).
    Definition next (x : nat -> flt) (j : nat) : flt := rsub (radd (x j) (rlog (shares j))) (log_share (choice x) j).
    Definition nested_next (x : nat -> flt) (j : nat) : flt :=
      radd (x j) (rmul (rsub (rlog (shares j)) (log_share (nested_choice x) j)) (dampener group_rho (group j))).
    (** As a function of arrays, for the routines of IterModel. *)
    Definition rounded_contraction (nested : bool) : contraction_fn :=
      fun _ _ _ x => (map ((if nested then nested_next else next) (fun k => nth k x NaN)) (seq 0 J), None).
  End Contraction.
End Arithmetic.
