(** Configurations: which arguments the constructors of Integration, Iteration and Optimization accept, and which options
    reach the routines.  /repo/pyblp/configurations/integration.py, iteration.py and optimization.py.  Definitions only. *)
From Coq Require Import Reals List Bool Arith ZArith String.
From Verif Require Import FltModel IterModel IntegModel.
Import ListNotations.
Local Open Scope string_scope.
Local Open Scope list_scope.

(** Python values as far as constructors tell them apart.  Booleans are integers.  NumPy's scalars are [PyOther], except for
    those of type numpy.float64, which are floats. *)
Inductive value := PyNone | PyBool (b : bool) | PyInt (z : Z) | PyFloat (x : flt) | PyStr (s : string) | PyCallable (f : nat)
  | PyOther (o : nat).

Definition is_int (v : value) : bool := match v with PyBool _ | PyInt _ => true | _ => false end.
Definition is_float (v : value) : bool := match v with PyFloat _ => true | _ => false end.
Definition is_callable (v : value) : bool := match v with PyCallable _ => true | _ => false end.
(** Numbers that are compared with other numbers. *)
Definition number (v : value) : option flt :=
  match v with
  | PyBool b => Some (Num (if b then 1 else 0))
  | PyInt z => Some (Num (IZR z))
  | PyFloat x => Some x
  | _ => None
  end.
Definition is_number (v : value) : bool := match number v with Some _ => true | None => false end.
Definition number_or (v : value) : flt := match number v with Some x => x | None => NaN end.
(** [bool(v)]: other objects are true unless they say otherwise, which [truthy_other] does. *)
Definition truthy (truthy_other : nat -> bool) (v : value) : bool :=
  match v with
  | PyNone => false
  | PyBool b => b
  | PyInt z => negb (Z.eqb z 0)
  | PyFloat x => negb (feqb x (Num 0))
  | PyStr s => negb (String.eqb s "")
  | PyCallable _ => true
  | PyOther o => truthy_other o
  end.

(** Dictionaries.  The order of keys only matters for how options are printed, so [update] adds in front. *)
Definition dict := list (string * value).
Fixpoint get (d : dict) (k : string) : option value :=
  match d with [] => None | (k', v) :: d' => if String.eqb k' k then Some v else get d' k end.
Definition update (d new : dict) : dict := (new ++ d)%list.
Fixpoint delete (d : dict) (k : string) : dict :=
  match d with [] => [] | (k', v) :: d' => if String.eqb k' k then delete d' k else (k', v) :: delete d' k end.
Definition get_or (d : dict) (k : string) (default : value) : value := match get d k with Some v => v | None => default end.
Definition member (s : string) (l : list string) : bool := existsb (String.eqb s) l.

(** The argument for options: nothing, a dictionary, or something else. *)
Inductive options_argument := NoOptions | Options (d : dict) | NotOptions.
Definition given (o : options_argument) : dict := match o with Options d => d | _ => [] end.
Definition acceptable_options (o : options_argument) : bool := match o with NotOptions => false | _ => true end.

(** ** Integration *)

Definition specifications := ["monte_carlo"; "halton"; "lhs"; "mlhs"; "product"; "grid"; "nested_product"; "nested_grid"].
Definition random_specifications := ["monte_carlo"; "halton"; "lhs"; "mlhs"].
Record integration := mk_integration { in_specification : string; in_size : value; in_options : dict }.

(** [Integration.__init__].  integration.py 102-152.  None: ValueError.  Sizes that are not integers are not compared with one.
    Descriptions are left out, and so are unhashable specifications. *)
Definition integration_defaults (specification : string) : dict :=
  if String.eqb specification "halton" then [("discard", PyInt 1000); ("scramble", PyBool true)] else [].
Definition configure_integration (specification : string) (size : value) (specification_options : options_argument)
  : option integration :=
  if negb (member specification specifications) then None
  else if negb (is_int size) || fltb (number_or size) (Num 1) then None
  else if negb (acceptable_options specification_options) then None
  else
    let opts := update (integration_defaults specification) (given specification_options) in
    if member specification random_specifications && negb (is_int (get_or opts "seed" (PyInt 0))) then None
    else if String.eqb specification "halton" &&
            (negb (is_int (get_or opts "discard" PyNone)) || fltb (number_or (get_or opts "discard" PyNone)) (Num 0)) then None
    else Some (mk_integration specification size opts).

(** An accepted integer as a number of rows: booleans are zero and one. *)
Definition as_integer (v : value) : Z := match v with PyBool b => if b then 1 else 0 | PyInt z => z | _ => 0 end.

(** What [_build_many] and [_build] pass to builders: the rule with Halton's options, the size, and the seed, which is None for
    rules that draw nothing and if no seed was given.  integration.py 105-121, 164-182, 188-197. *)
Definition rule_of (truthy_other : nat -> bool) (c : integration) : IntegModel.specification :=
  let s := in_specification c in
  if String.eqb s "monte_carlo" then MonteCarlo
  else if String.eqb s "halton" then
    Halton (Z.to_nat (as_integer (get_or (in_options c) "discard" PyNone)))
      (truthy truthy_other (get_or (in_options c) "scramble" PyNone))
  else if String.eqb s "lhs" then Lhs false
  else if String.eqb s "mlhs" then Lhs true
  else if String.eqb s "product" then ProductRule false
  else if String.eqb s "nested_product" then ProductRule true
  else Grid.
Definition size_of (c : integration) : nat := Z.to_nat (as_integer (in_size c)).
Definition seed_of (c : integration) : option value :=
  if member (in_specification c) random_specifications then get (in_options c) "seed" else None.

(** ** Iteration *)

(** Methods are strings or callable objects; what is neither is [PyOther] or another value. *)
Definition simple_methods := ["simple"; "squarem"; "broyden1"; "broyden2"; "anderson"; "diagbroyden"; "krylov"; "df-sane"].
Definition complex_methods := ["hybr"; "lm"; "return"].
Definition norm_methods := ["broyden1"; "broyden2"; "anderson"; "diagbroyden"; "krylov"; "df-sane"].
Definition infinity_norm_value := PyCallable 0.
Definition iteration_defaults (method : string) : dict :=
  if member method ["simple"; "squarem"] then
    (if String.eqb method "squarem"
     then [("scheme", PyInt 3); ("step_min", PyFloat (Num 1)); ("step_max", PyFloat (Num 1)); ("step_factor", PyFloat (Num 4))]
     else []) ++
    [("atol", PyFloat (Num (1 / 10 ^ 14))); ("rtol", PyInt 0); ("max_evaluations", PyInt 5000); ("norm", infinity_norm_value)]
  else if member method norm_methods then
    [(if String.eqb method "df-sane" then "fnorm" else "tol_norm", infinity_norm_value)]
  else [].
(** Validation of options of 'simple' and 'squarem'.  iteration.py 226-251.  [in {1, 2, 3}] compares numbers. *)
Definition valid_tolerances (o : dict) : bool :=
  let atol := get_or o "atol" PyNone in let rtol := get_or o "rtol" PyNone in let max := get_or o "max_evaluations" PyNone in
  negb (negb (is_number atol) || fltb (number_or atol) (Num 0)) &&
  negb (negb (is_number rtol) || fltb (number_or rtol) (Num 0)) &&
  negb (feqb (number_or atol) (number_or rtol) && feqb (number_or rtol) (Num 0)) &&
  is_int max && negb (fltb (number_or max) (Num 1)) && is_callable (get_or o "norm" PyNone).
Definition one_of_three (v : value) : bool :=
  feqb (number_or v) (Num 1) || feqb (number_or v) (Num 2) || feqb (number_or v) (Num 3).
Definition valid_steps (o : dict) : bool :=
  let smin := get_or o "step_min" PyNone in let smax := get_or o "step_max" PyNone in
  let factor := get_or o "step_factor" PyNone in
  one_of_three (get_or o "scheme" PyNone) && is_float smin &&
  negb (negb (is_float smax) || fleb (number_or smax) (Num 0)) &&
  negb (fltb (number_or smax) (number_or smin)) &&
  negb (negb (is_float factor) || fleb (number_or factor) (Num 0)).

Record iteration := mk_iteration { it_method : value; it_options : dict; it_jacobian : bool }.
(** [Iteration.__init__].  iteration.py 146-251.  None: ValueError.  [compute_jacobian] is taken to be a boolean;
    [universal_display] and descriptions are left out. *)
Definition configure_iteration (method : value) (method_options : options_argument) (compute_jacobian : bool) : option iteration :=
  match method with
  | PyCallable f => if acceptable_options method_options then Some (mk_iteration method (given method_options) compute_jacobian) else None
  | PyStr m =>
      if negb (member m (simple_methods ++ complex_methods)) then None
      else if negb (acceptable_options method_options) then None
      else if member m simple_methods && compute_jacobian then None
      else
        let o := update (iteration_defaults m) (given method_options) in
        if String.eqb m "return" && negb (match o with [] => true | _ => false end) then None
        else if member m ["simple"; "squarem"] && negb (valid_tolerances o) then None
        else if String.eqb m "squarem" && negb (valid_steps o) then None
        else Some (mk_iteration method o compute_jacobian)
  | _ => None
  end.

(** [self._iterator( raw_initial, contraction_wrapper, iteration_callback, **self._method_options)] with 'simple' and 'squarem':
    Python binds options to parameters by name.  None: TypeError, for a name that is not a parameter.  iteration.py 290-292,
    369-376, 403-414. *)
Definition simple_parameters := ["max_evaluations"; "atol"; "rtol"; "norm"].
Definition squarem_parameters := simple_parameters ++ ["scheme"; "step_min"; "step_max"; "step_factor"].
Definition binds (parameters : list string) (o : dict) : bool := forallb (fun kv => member (fst kv) parameters) o.
Definition tolerance_of (norms : nat -> fvec -> flt) (o : dict) : tolerance :=
  mk_tol (number_or (get_or o "atol" PyNone)) (number_or (get_or o "rtol" PyNone))
    (match get_or o "norm" PyNone with PyCallable n => norms n | _ => fun _ => NaN end).
Definition max_evaluations_of (o : dict) : nat := Z.to_nat (as_integer (get_or o "max_evaluations" PyNone)).
Definition scheme_of (o : dict) : nat :=
  let v := number_or (get_or o "scheme" PyNone) in if feqb v (Num 1) then 1 else if feqb v (Num 2) then 2 else 3.
Definition bounds_of (o : dict) : bounds :=
  mk_bounds (number_or (get_or o "step_min" PyNone)) (number_or (get_or o "step_max" PyNone)).
Definition factor_of (o : dict) : flt := number_or (get_or o "step_factor" PyNone).

(** [_iterate] with these two methods.  None: TypeError (or no fuel, which does not happen). *)
Definition iterate (norms : nat -> fvec -> flt) (c : iteration) (f : contraction_fn) (initial : fvec) : option outcome :=
  match it_method c with
  | PyStr "simple" =>
      if binds simple_parameters (it_options c)
      then simple_iterator f (tolerance_of norms (it_options c)) (max_evaluations_of (it_options c)) initial else None
  | PyStr "squarem" =>
      if binds squarem_parameters (it_options c)
      then option_map q_out (squarem_iterator f (tolerance_of norms (it_options c)) (max_evaluations_of (it_options c))
                                (scheme_of (it_options c)) (factor_of (it_options c)) (bounds_of (it_options c)) initial)
      else None
  | PyStr "return" => Some (return_iterator initial)
  | _ => None
  end.

(** ** Optimization *)

Definition gradient_free_methods := ["nelder-mead"; "powell"].
Definition unbounded_methods := ["cg"; "bfgs"; "newton-cg"].
Definition bounded_methods := ["l-bfgs-b"; "tnc"; "slsqp"; "trust-constr"; "knitro"; "return"].
Record optimization := mk_optimization { op_method : value; op_options : dict; op_gradient : bool; op_bounds : bool }.

(** [Optimization.__init__].  optimization.py 160-255.  None: ValueError.  Universal display is on or options.verbose is off,
    otherwise options that only affect displays are added.  The search for Knitro's installation is left out. *)
Definition optimization_defaults (method : string) (compute_gradient : bool) : dict :=
  if String.eqb method "knitro"
  then [("hessopt", PyInt 2); ("algorithm", PyInt 1); ("honorbnds", PyInt 1);
        ("gradopt", PyInt (if compute_gradient then 1 else 2)); ("outlev", PyInt 0)]
  else [].
Definition configure_optimization (method : value) (method_options : options_argument) (compute_gradient : bool)
  : option optimization :=
  match method with
  | PyCallable _ =>
      if acceptable_options method_options
      then Some (mk_optimization method (given method_options) compute_gradient true) else None
  | PyStr m =>
      if negb (member m (gradient_free_methods ++ unbounded_methods ++ bounded_methods)) then None
      else if negb (acceptable_options method_options) then None
      else if member m gradient_free_methods && compute_gradient then None
      else if String.eqb m "newton-cg" && negb compute_gradient then None
      else
        let o := update (optimization_defaults m compute_gradient) (given method_options) in
        if String.eqb m "return" && negb (match o with [] => true | _ => false end) then None
        else Some (mk_optimization method (if String.eqb m "knitro" then delete o "knitro_dir" else o) compute_gradient
                     (member m bounded_methods))
  | _ => None
  end.

(** Bounds as SciPy gets them: nothing, pairs, or a [Bounds] object with its flag for keeping iterates feasible. *)
Inductive scipy_bounds := NoBounds | Pairs (l : list (flt * flt)) | Feasible (l : list (flt * flt)) (keep_feasible : value).
Record scipy_call := mk_scipy_call { sc_method : string; sc_jac : bool; sc_bounds : scipy_bounds; sc_options : dict }.
(** [_optimize] up to the call of [scipy.optimize.minimize] in [scipy_optimizer].  optimization.py 299-305, 548-565.
    The option for Hessians, also passed as an argument, is left out.  None: not a method of SciPy. *)
Definition scipy_minimize (c : optimization) (bounds : option (list (flt * flt))) : option scipy_call :=
  match op_method c with
  | PyStr m =>
      if member m ["knitro"; "return"] then None
      else
        let raw := match bounds with Some l => if op_bounds c then Some l else None | None => None end in
        Some (mk_scipy_call m (op_gradient c)
          (match raw, get (op_options c) "keep_feasible" with
           | None, _ => NoBounds
           | Some l, None => Pairs l
           | Some l, Some v => Feasible l v
           end)
          (delete (op_options c) "keep_feasible"))
  | _ => None
  end.
