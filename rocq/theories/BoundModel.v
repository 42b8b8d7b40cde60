(** Bounds on shares and marginal costs: [_coerce_optional_bounds] (pyblp/economies/economy.py 361-377) and what bounds on costs do to costs and
    their Jacobian (pyblp/markets/problem_market.py 274-309, 168-183).  Bounds on shares are in DemandModel ([clip_share], [contraction]).
    Definitions only. *)
From Coq Require Import Reals List Bool Arith.
From Verif Require Import Base FltModel DemandModel SupplyModel DerivModel EndoModel.
Import ListNotations.
Local Open Scope R_scope.

(** A bound as given by the user: None, a number, anything that [np.asarray(_, options.dtype)] turns into a new array (for example a list, in
    which None becomes NaN), or an array of floats, which [np.asarray] does not copy.  Such arrays live at addresses in memory.  Shapes are left
    out: only sizes are checked. *)
Inductive given := NoBound | Number (x : flt) | Converted (l : list (option flt)) | Floats (address : nat).
Definition memory := nat -> list flt.
Definition write (h : memory) (address : nat) (l : list flt) : memory := fun a => if Nat.eqb a address then l else h a.
Definition or_nan (x : option flt) : flt := match x with Some v => v | None => NaN end.
(** [np.asarray(bounds[0], options.dtype)]. *)
Definition elements (h : memory) (g : given) : list flt :=
  match g with NoBound => [NaN] | Number x => [x] | Converted l => map or_nan l | Floats a => h a end.
(** [bounds[0][np.isnan(bounds[0])] = v]. *)
Definition fill (v : flt) (l : list flt) : list flt := map (fun x => if fnan x then v else x) l.
Definition fill_in_place (v : flt) (h : memory) (g : given) : memory :=
  match g with Floats a => write h a (fill v (h a)) | _ => h end.
(** What is read from the array after both assignments. *)
Definition read (v : flt) (h : memory) (g : given) : list flt := match g with Floats a => h a | _ => fill v (elements h g) end.

Inductive bounds_error := NotAPair | LowerNotAFloat | UpperNotAFloat | LowerAboveUpper.
Inductive coerced := Bounds (lower upper : flt) | Refused (e : bounds_error).
(** [_coerce_optional_bounds], with memory afterwards.  economy.py 361-377. *)
Definition coerce_bounds (h : memory) (bounds : option (list given)) : coerced * memory :=
  match bounds with
  | None => (Bounds NInf PInf, h)
  | Some [l; u] =>
      let h1 := fill_in_place NInf h l in
      let h2 := fill_in_place PInf h1 u in
      (match read NInf h2 l, read PInf h2 u with
       | [x], [y] => if fltb y x then Refused LowerAboveUpper else Bounds x y
       | [x], _ => Refused UpperNotAFloat
       | _, _ => Refused LowerNotAFloat
       end, h2)
  | Some _ => (Refused NotAPair, h)
  end.

(** [clipped_costs].  problem_market.py 295. *)
Definition cost_clipped (bounds : option R * option R) (c : R) : bool :=
  orb (match fst bounds with Some lo => if Rlt_dec c lo then true else false | None => false end)
      (match snd bounds with Some hi => if Rlt_dec hi c then true else false | None => false end).
(** Whether a NonpositiveCostsError is reported.  problem_market.py 296-305. *)
Definition nonpositive_costs (S : supply) (bounds : option R * option R) (J : nat) (costs : nat -> R) : bool :=
  match stype S with
  | LinearCosts => false
  | LogCosts => existsb (fun j => if Rle_dec (clip_cost bounds (costs j)) 0 then true else false) (seq 0 J)
  end.

(** A row of the Jacobian of omega with respect to one parameter: the derivatives of markups with respect to parameters of demand, the
    characteristic of a parameter in gamma that is not concentrated out, and zero for clipped costs.  market.py 1480-1518,
    problem_market.py 168-183. *)
Inductive parameter := Demand (eta_jacobian : nat -> R) | Gamma (X3 : nat -> R).
Definition omega_jacobian (S : supply) (bounds : option R * option R) (costs : nat -> R) (p : parameter) (j : nat) : R :=
  if cost_clipped bounds (costs j) then 0
  else match p with
       | Demand e => omega_by_theta (match stype S with LogCosts => true | LinearCosts => false end) (tilde_costs S bounds costs) e j
       | Gamma X3 => omega_by_gamma X3 j
       end.
