(** Property theorems about configurations: C141. *)
From Coq Require Import Reals Lra Lia List Bool Arith ZArith String.
From Verif Require Import Base FltModel IterModel IntegModel ConfigModel ConfigSpec ConfigProofs.
Import ListNotations.
Local Open Scope string_scope.
Local Open Scope list_scope.

(** C141: options of simple iteration are accepted exactly when documented ranges hold, whatever other names there are. *)
Theorem C141_simple_accepted :
  forall d,
  (exists c, configure_iteration (PyStr "simple") (Options d) false = Some c) <->
  exists atol rtol max norm, simple_choice d atol rtol max norm.
Proof. exact simple_accepted. Qed.
Print Assumptions C141_simple_accepted.

(** C141: and so are those of SQUAREM. *)
Theorem C141_squarem_accepted :
  forall d,
  (exists c, configure_iteration (PyStr "squarem") (Options d) false = Some c) <->
  (exists atol rtol max norm, simple_choice d atol rtol max norm) /\
  (exists scheme smin smax factor, squarem_choice d scheme smin smax factor).
Proof. exact squarem_accepted. Qed.
Print Assumptions C141_squarem_accepted.

(** C141: accepted options with documented names are what iteration uses, and documented defaults otherwise. *)
Theorem C141_simple_used :
  forall norms d c f x atol rtol max norm,
  configure_iteration (PyStr "simple") (Options d) false = Some c ->
  only ["max_evaluations"; "atol"; "rtol"; "norm"] d -> simple_choice d atol rtol max norm ->
  iterate norms c f x = simple_iterator f (mk_tol atol rtol (norms norm)) (Z.to_nat max) x.
Proof. exact simple_runs. Qed.
Print Assumptions C141_simple_used.

Theorem C141_squarem_used :
  forall norms d c f x atol rtol max norm scheme smin smax factor,
  configure_iteration (PyStr "squarem") (Options d) false = Some c ->
  only ["max_evaluations"; "atol"; "rtol"; "norm"; "scheme"; "step_min"; "step_max"; "step_factor"] d ->
  simple_choice d atol rtol max norm -> squarem_choice d scheme smin smax factor ->
  iterate norms c f x
  = option_map q_out (squarem_iterator f (mk_tol atol rtol (norms norm)) (Z.to_nat max) scheme factor (mk_bounds smin smax) x).
Proof. exact squarem_runs. Qed.
Print Assumptions C141_squarem_used.

(** C141: any other name is accepted when the configuration is made, but then every solution fails. *)
Theorem C141_unknown_iteration_options :
  forall norms m d c f x k v,
  m = "simple" /\ ~ In k simple_parameters \/ m = "squarem" /\ ~ In k squarem_parameters ->
  configure_iteration (PyStr m) (Options d) false = Some c -> In (k, v) d -> iterate norms c f x = None.
Proof. exact unknown_fails. Qed.
Print Assumptions C141_unknown_iteration_options.

(** C141: NaN is an accepted tolerance, with which simple iteration never reports convergence. *)
Theorem C141_nan_tolerances :
  forall norms d c f x o,
  configure_iteration (PyStr "simple") (Options d) false = Some c -> get d "atol" = Some (PyFloat NaN) ->
  iterate norms c f x = Some o -> o_converged o = false.
Proof. exact nan_never. Qed.
Print Assumptions C141_nan_tolerances.

(** C141: analytic Jacobians can only be requested of routines that use them or evaluate nothing, and the trivial routine has no
    options. *)
Theorem C141_jacobians :
  forall m o c, configure_iteration (PyStr m) o true = Some c -> m = "hybr" \/ m = "lm" \/ m = "return".
Proof. exact jacobians. Qed.
Print Assumptions C141_jacobians.

Theorem C141_return_options :
  forall d j, (exists c, configure_iteration (PyStr "return") (Options d) j = Some c) <-> d = [].
Proof. exact return_accepted. Qed.
Print Assumptions C141_return_options.

(** C141: SciPy's routines are accepted whatever options there are. *)
Theorem C141_scipy_iteration :
  forall m d j, In m ["hybr"; "lm"] \/ In m ["broyden1"; "broyden2"; "anderson"; "diagbroyden"; "krylov"; "df-sane"] ->
  (exists c, configure_iteration (PyStr m) (Options d) j = Some c) <-> (j = true -> In m ["hybr"; "lm"]).
Proof. intros m d j H. exact (other_methods m d H j). Qed.
Print Assumptions C141_scipy_iteration.

(** C141: options that are not a dictionary are always refused, and no options are the same as an empty dictionary. *)
Theorem C141_dictionaries :
  (forall s size, configure_integration s size NotOptions = None /\
     configure_integration s size NoOptions = configure_integration s size (Options [])) /\
  (forall m j, configure_iteration m NotOptions j = None /\ configure_iteration m NoOptions j = configure_iteration m (Options []) j) /\
  (forall m g, configure_optimization m NotOptions g = None /\ configure_optimization m NoOptions g = configure_optimization m (Options []) g).
Proof.
  destruct not_options_refused as [A [B C]]. destruct no_options_empty as [A' [B' C']].
  split; [|split]; intros x y; split; auto.
Qed.
Print Assumptions C141_dictionaries.

(** C141: custom routines get all options, whatever they are, and are expected to support bounds and gradients. *)
Theorem C141_custom_methods :
  forall f d b,
  configure_iteration (PyCallable f) (Options d) b = Some (mk_iteration (PyCallable f) d b) /\
  configure_optimization (PyCallable f) (Options d) b = Some (mk_optimization (PyCallable f) d b true).
Proof. intros f d b. split; reflexivity. Qed.
Print Assumptions C141_custom_methods.

(** C141: integration configurations are accepted exactly when documented ranges hold. *)
Theorem C141_integration_accepted :
  forall s size d, (exists c, configure_integration s size (Options d) = Some c) <-> integration_choice s size d.
Proof. exact integration_accepted. Qed.
Print Assumptions C141_integration_accepted.

(** C141: and use documented options, and documented defaults otherwise. *)
Theorem C141_integration_used :
  forall s size d c, configure_integration s size (Options d) = Some c ->
  (forall t, s = "halton" -> documented_halton t d (rule_of t c)) /\
  (s = "monte_carlo" -> forall t, rule_of t c = MonteCarlo) /\ (s = "lhs" -> forall t, rule_of t c = Lhs false) /\
  (s = "mlhs" -> forall t, rule_of t c = Lhs true) /\ (s = "product" -> forall t, rule_of t c = ProductRule false) /\
  (s = "nested_product" -> forall t, rule_of t c = ProductRule true) /\
  (s = "grid" \/ s = "nested_grid" -> forall t, rule_of t c = Grid) /\
  seed_of c = (if member "seed" (supported s) then get d "seed" else None).
Proof. exact integration_runs. Qed.
Print Assumptions C141_integration_used.

(** C141: nodes and weights only depend on supported options of the specification; whatever else there is in the dictionary is
    accepted and ignored. *)
Theorem C141_integration_options :
  forall s size d d' c, agree_on (supported s) d d' ->
  configure_integration s size (Options d) = Some c ->
  exists c', configure_integration s size (Options d') = Some c' /\
    (forall t, rule_of t c' = rule_of t c) /\ size_of c' = size_of c /\ seed_of c' = seed_of c.
Proof. exact integration_same. Qed.
Print Assumptions C141_integration_options.

(** C141: sizes are positive integers, so that equal weights of draws sum to one. *)
Theorem C141_integration_sizes :
  forall s size o c, configure_integration s size o = Some c ->
  (exists z, integer size z /\ (1 <= z)%Z /\ size_of c = Z.to_nat z) /\ fold_right Rplus 0%R (equal_weights (size_of c)) = 1%R.
Proof.
  intros s size o c H. destruct (integration_size s size o c H) as [z [I [L E]]]. split; [exists z; auto|].
  apply equal_weights_sum. rewrite E. lia.
Qed.
Print Assumptions C141_integration_sizes.

(** C141: a misspelled option is not refused: the seed is not set. *)
Theorem C141_misspelled_refuted :
  ~ (forall s size d c, configure_integration s size (Options d) = Some c -> only (supported s) d).
Proof.
  intros H. specialize (H "monte_carlo" (PyInt 50) [("seeds", PyInt 0)] (mk_integration "monte_carlo" (PyInt 50) [("seeds", PyInt 0)])).
  assert (E : configure_integration "monte_carlo" (PyInt 50) (Options [("seeds", PyInt 0)])
    = Some (mk_integration "monte_carlo" (PyInt 50) [("seeds", PyInt 0)])).
  { unfold configure_integration. cbn. unfold rltb. destruct (Rlt_dec 50 1); [exfalso; lra|reflexivity]. }
  destruct (H E "seeds" (PyInt 0) (or_introl eq_refl)) as [X|[]]. discriminate.
Qed.
Print Assumptions C141_misspelled_refuted.

(** C141: optimization methods are accepted exactly when they are documented, with analytic gradients if they use and without if
    they do not require them. *)
Theorem C141_optimization_accepted :
  forall m o g,
  (exists c, configure_optimization (PyStr m) (Options o) g = Some c) <->
  (In m (bounds_and_gradients ++ gradients_only ++ neither) \/ m = "knitro" \/ m = "return" /\ o = []) /\
  (g = true -> ~ In m neither) /\ (m = "newton-cg" -> g = true).
Proof. exact optimization_methods. Qed.
Print Assumptions C141_optimization_accepted.

(** C141: SciPy gets all options but one, gradients if they were requested, and bounds exactly for methods that are documented to
    support them. *)
Theorem C141_optimization_used :
  forall m o g c bounds,
  configure_optimization (PyStr m) (Options o) g = Some c -> m <> "knitro" -> m <> "return" ->
  exists call, scipy_minimize c bounds = Some call /\ sc_method call = m /\ sc_jac call = g /\
    (forall k, get (sc_options call) k = if String.eqb "keep_feasible" k then None else get o k) /\
    sc_bounds call = (match bounds with
                      | Some l => if member m bounds_and_gradients then
                          match get o "keep_feasible" with Some v => Feasible l v | None => Pairs l end else NoBounds
                      | None => NoBounds end).
Proof. exact minimize_call. Qed.
Print Assumptions C141_optimization_used.

(** C141: Knitro gets all options but the directory of its installation, and documented defaults otherwise: it approximates gradients
    exactly if they are not computed. *)
Theorem C141_knitro_used :
  forall o g c, configure_optimization (PyStr "knitro") (Options o) g = Some c ->
  op_bounds c = true /\ op_gradient c = g /\
  forall k, get (op_options c) k = if String.eqb k "knitro_dir" then None else
    match get o k with
    | Some v => Some v
    | None => if String.eqb k "hessopt" then Some (PyInt 2) else if String.eqb k "algorithm" then Some (PyInt 1)
              else if String.eqb k "honorbnds" then Some (PyInt 1)
              else if String.eqb k "gradopt" then Some (PyInt (if g then 1 else 2))
              else if String.eqb k "outlev" then Some (PyInt 0) else None
    end.
Proof. exact knitro_call. Qed.
Print Assumptions C141_knitro_used.

(** C141: the documentation says that keep_feasible is True by default, but without this option nothing about feasibility is passed. *)
Theorem C141_keep_feasible_refuted :
  ~ (forall m o c l, In m bounds_and_gradients -> configure_optimization (PyStr m) (Options o) true = Some c ->
     get o "keep_feasible" = None ->
     exists call, scipy_minimize c (Some l) = Some call /\ sc_bounds call = Feasible l (PyBool true)).
Proof.
  intros H. destruct (H "trust-constr" [] (mk_optimization (PyStr "trust-constr") [] true true) [] (or_intror (or_introl eq_refl)) eq_refl eq_refl)
    as [call [E B]]. injection E as <-. discriminate B.
Qed.
Print Assumptions C141_keep_feasible_refuted.

(** Accepted configurations: defaults, loose options, an unknown option and a tolerance that is not a number. *)
Example C141_applies :
  simple_choice [] (Num (1 / 10 ^ 14)) (Num 0) 5000 0 /\
  squarem_choice [("scheme", PyBool true)] 1 (Num 1) (Num 1) (Num 4) /\
  simple_choice [("tol", PyInt 1); ("atol", PyFloat NaN)] NaN (Num 0) 5000 0 /\
  (exists c, configure_iteration (PyStr "simple") (Options [("tol", PyInt 1); ("atol", PyFloat NaN)]) false = Some c) /\
  (exists c, configure_optimization (PyStr "tnc") (Options [("ftol", PyFloat (Num 1))]) true = Some c) /\
  integration_choice "halton" (PyInt 50) [("discard", PyInt 0)].
Proof.
  assert (P : (0 < 1 / 10 ^ 14)%R) by (apply Rdiv_lt_0_compat; [lra|apply pow_lt; lra]).
  assert (S3 : simple_choice [("tol", PyInt 1); ("atol", PyFloat NaN)] NaN (Num 0) 5000 0).
  { unfold simple_choice, picked. cbn. repeat split; try lia.
    - left. reflexivity.
    - intros [E|[r [E _]]]; discriminate.
    - right. exists 0%Z. split; [left; reflexivity|reflexivity].
    - intros [E|[r [E L]]]; [discriminate|]. injection E as <-. lra.
    - intros [E _]. discriminate.
    - left. reflexivity. }
  split.
  { unfold simple_choice, picked. cbn [get]. repeat split; try lia.
    - left. reflexivity.
    - intros [E|[r [E L]]]; [discriminate|]. injection E as <-. lra.
    - right. exists 0%Z. split; [left; reflexivity|reflexivity].
    - intros [E|[r [E L]]]; [discriminate|]. injection E as <-. lra.
    - intros [E _]. injection E as E. lra.
    - left. reflexivity. }
  split.
  { unfold squarem_choice, picked. cbn. repeat split; try lia; try (intros [E|[r [E L]]]; [discriminate|injection E as <-; lra]).
    - right. exists 1%Z. split; [right; left; auto|reflexivity].
    - intros [[a [b [A [B L]]]]|[[A _]|[A _]]]; try discriminate. injection A as <-. injection B as <-. lra. }
  split; [exact S3|]. split; [apply simple_accepted; eexists; eexists; eexists; eexists; exact S3|].
  split.
  { apply optimization_methods. split; [left; cbn; tauto|]. split; [|discriminate]. intros _ I. cbn in I. intuition discriminate. }
  split; [cbn; tauto|]. split; [exists 50%Z; split; [left; reflexivity|lia]|].
  split; intros _; exists 0%Z; [left; reflexivity|split; [left; reflexivity|lia]].
Qed.
