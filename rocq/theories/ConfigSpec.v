(** What is documented about options of configurations. *)
From Coq Require Import Reals List Bool Arith ZArith String.
From Verif Require Import FltModel IterModel IntegModel ConfigModel.
Import ListNotations.
Local Open Scope string_scope.

(** The last value given for an option, or its documented default. *)
Definition picked (d : dict) (k : string) (default : value) : value :=
  match get d k with Some v => v | None => default end.
(** Python's integers, which include booleans. *)
Definition integer (v : value) (z : Z) : Prop := v = PyInt z \/ v = PyBool true /\ z = 1%Z \/ v = PyBool false /\ z = 0%Z.
Definition numeric (v : value) (x : flt) : Prop := v = PyFloat x \/ exists z, integer v z /\ x = Num (IZR z).
Definition negative (x : flt) : Prop := x = NInf \/ exists r, x = Num r /\ (r < 0)%R.
Definition not_positive (x : flt) : Prop := x = NInf \/ exists r, x = Num r /\ (r <= 0)%R.
Definition below (x y : flt) : Prop :=
  (exists a b, x = Num a /\ y = Num b /\ (a < b)%R) \/ (x = NInf /\ (y = PInf \/ exists b, y = Num b)) \/ (y = PInf /\ exists a, x = Num a).

(** Options of simple iteration that the documentation allows, with the values to be used: tolerances that are not negative and
    not both zero, a positive number of evaluations, and a norm.  (NaN is a float that is not negative.) *)
Definition simple_choice (d : dict) (atol rtol : flt) (max : Z) (norm : nat) : Prop :=
  numeric (picked d "atol" (PyFloat (Num (1 / 10 ^ 14)))) atol /\ ~ negative atol /\
  numeric (picked d "rtol" (PyInt 0)) rtol /\ ~ negative rtol /\
  ~ (atol = Num 0 /\ rtol = Num 0) /\
  integer (picked d "max_evaluations" (PyInt 5000)) max /\ (1 <= max)%Z /\
  picked d "norm" infinity_norm_value = PyCallable norm.
(** Additional options of SQUAREM. *)
Definition squarem_choice (d : dict) (scheme : nat) (smin smax factor : flt) : Prop :=
  numeric (picked d "scheme" (PyInt 3)) (Num (INR scheme)) /\ (scheme = 1 \/ scheme = 2 \/ scheme = 3) /\
  picked d "step_min" (PyFloat (Num 1)) = PyFloat smin /\
  picked d "step_max" (PyFloat (Num 1)) = PyFloat smax /\ ~ not_positive smax /\ ~ below smax smin /\
  picked d "step_factor" (PyFloat (Num 4)) = PyFloat factor /\ ~ not_positive factor.
Definition only (names : list string) (d : dict) : Prop := forall k v, In (k, v) d -> In k names.

(** Options that integration specifications support. *)
Definition supported (specification : string) : list string :=
  if String.eqb specification "halton" then ["seed"; "discard"; "scramble"]
  else if String.eqb specification "monte_carlo" || String.eqb specification "lhs" || String.eqb specification "mlhs" then ["seed"]
  else [].
Definition agree_on (names : list string) (d d' : dict) : Prop := forall k, In k names -> get d k = get d' k.

(** Methods of SciPy's optimizers by what the documentation says about them. *)
Definition bounds_and_gradients := ["slsqp"; "trust-constr"; "l-bfgs-b"; "tnc"].
Definition gradients_only := ["cg"; "bfgs"; "newton-cg"].
Definition neither := ["nelder-mead"; "powell"].

(** Options of integration that the documentation allows: an integer as a seed, if there is one, for rules that draw random numbers,
    and a number of discarded Halton points that is not negative. *)
Definition documented_rules := ["monte_carlo"; "halton"; "lhs"; "mlhs"; "product"; "nested_product"; "grid"; "nested_grid"].
Definition integration_choice (specification : string) (size : value) (d : dict) : Prop :=
  In specification documented_rules /\ (exists z, integer size z /\ (1 <= z)%Z) /\
  (In "seed" (supported specification) -> exists z, integer (picked d "seed" (PyInt 0)) z) /\
  (In "discard" (supported specification) -> exists z, integer (picked d "discard" (PyInt 1000)) z /\ (0 <= z)%Z).
(** What Python takes to be false: None, False, zeros, empty strings, and objects that say so. *)
Definition false_like (truthy_other : nat -> bool) (v : value) : Prop :=
  v = PyNone \/ v = PyBool false \/ v = PyInt 0 \/ v = PyFloat (Num 0) \/ v = PyStr "" \/ exists o, v = PyOther o /\ truthy_other o = false.
(** Halton points that an accepted configuration of this rule describes. *)
Definition documented_halton (truthy_other : nat -> bool) (d : dict) (r : specification) : Prop :=
  exists z scramble, integer (picked d "discard" (PyInt 1000)) z /\ r = Halton (Z.to_nat z) scramble /\
    (scramble = false <-> false_like truthy_other (picked d "scramble" (PyBool true))).
