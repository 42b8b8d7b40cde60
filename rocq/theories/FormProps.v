(** Properties of formulas.  Statements only; proofs are in FormProofs.v. *)
From Coq Require Import Reals Lra Lia List Bool Arith ZArith Ascii String.
From Verif Require Import FormModel FormSpec FormProofs.
Import ListNotations.
Local Open Scope R_scope.

(** C82: in each row, a column formulation evaluates to the entry of the design matrix, the product
    of its numerical factors and of the indicators for its levels, ... *)
Theorem C82_column_is_design :
  forall (t : list factor) (levels indicators : list (string * string)) (level_of : string -> string)
         (columns : list expr) (raw : string -> option R) (rho : string -> R),
  map fst levels = categories t ->
  NoDup (categories t) ->
  (forall v, In v (categories t) -> ~ In v (numeric_symbols t)) ->
  (forall s, In s (numeric_symbols t) -> has_bracket s = false) ->
  incl levels indicators ->
  (forall v l, In (v, l) indicators -> has_bracket v = false) ->
  In (column_expression t levels) columns ->
  (forall s, In s (numeric_symbols t) -> raw s = Some (rho s)) ->
  evaluate (underlying columns indicators raw level_of) (column_expression t levels)
  = Some (design_value rho level_of t levels).
Proof. intros. apply column_evaluates; assumption. Qed.
Print Assumptions C82_column_is_design.

(** ... and overriding one variable gives the entry for data in which only that variable has changed. *)
Theorem C82_override_is_new_data :
  forall (t : list factor) (levels indicators : list (string * string)) (level_of : string -> string)
         (columns : list expr) (raw : string -> option R) (rho : string -> R) (s : string) (x : R),
  map fst levels = categories t ->
  NoDup (categories t) ->
  (forall v, In v (categories t) -> ~ In v (numeric_symbols t)) ->
  (forall s, In s (numeric_symbols t) -> has_bracket s = false) ->
  incl levels indicators ->
  (forall v l, In (v, l) indicators -> has_bracket v = false) ->
  In (column_expression t levels) columns ->
  (forall s, In s (numeric_symbols t) -> raw s = Some (rho s)) ->
  has_bracket s = false ->
  evaluate (symbol_data (underlying columns indicators raw level_of)
              (fun n => if String.eqb n s then Some x else None)) (column_expression t levels)
  = Some (design_value (set_var rho s x) level_of t levels).
Proof. intros. apply column_override; assumption. Qed.
Print Assumptions C82_override_is_new_data.

(** Variables are stored if they appear in a column, and no others are, so that looking for a name in what is stored, as checks for prices
    and shares do, tells whether a column depends on it. *)
Theorem C82_stored_names :
  forall (columns : list expr) (indicators : list (string * string)) (raw : string -> option R) (level_of : string -> string) (name : string),
  (~ In name (flat_map free columns) -> underlying columns indicators raw level_of name = None) /\
  (In name (flat_map free columns) -> (forall v l, In (v, l) indicators -> full_symbol v l <> name) ->
   underlying columns indicators raw level_of name = raw name).
Proof. exact stored_names. Qed.
Print Assumptions C82_stored_names.

(** A variable that is both a numerical factor and a categorical one, as in x:C(x), is replaced in both
    places, and its column formulation evaluates to something else. *)
Theorem C82_shared_variable_refuted :
  exists (t : list factor) (levels indicators : list (string * string)) (level_of : string -> string)
         (columns : list expr) (raw : string -> option R) (rho : string -> R) (y : R),
  map fst levels = categories t /\
  NoDup (categories t) /\
  (forall s, In s (numeric_symbols t) -> has_bracket s = false) /\
  incl levels indicators /\
  (forall v l, In (v, l) indicators -> has_bracket v = false) /\
  In (column_expression t levels) columns /\
  (forall s, In s (numeric_symbols t) -> raw s = Some (rho s)) /\
  evaluate (underlying columns indicators raw level_of) (column_expression t levels) = Some y /\
  y <> design_value rho level_of t levels.
Proof.
  exists [Numeric (Sym "x"); Categorical "x"], [("x", "3")]%string, [("x", "3")]%string, (fun _ => "3"%string),
    [column_expression [Numeric (Sym "x"); Categorical "x"] [("x", "3")]%string], (fun _ => Some 3), (fun _ => 3), (1 * 1 * 1).
  repeat split.
  - constructor; [intros []|constructor].
  - intros s [<-|[]]. reflexivity.
  - intros q H. exact H.
  - intros v l [[= <- <-]|[]]. reflexivity.
  - left. reflexivity.
  - cbn. lra.
Qed.
Print Assumptions C82_shared_variable_refuted.

Example C82_applies : exists (t : list factor) (levels indicators : list (string * string)) (rho : string -> R),
  map fst levels = categories t /\ NoDup (categories t) /\
  (forall v, In v (categories t) -> ~ In v (numeric_symbols t)) /\
  (forall s, In s (numeric_symbols t) -> has_bracket s = false) /\
  incl levels indicators /\ (forall v l, In (v, l) indicators -> has_bracket v = false) /\
  design_value rho (fun _ => "east"%string) t levels = ln 2 * 5.
Proof.
  exists [Numeric (Log (Sym "prices")); Categorical "region"; Numeric (Sym "x")],
    [("region", "east")]%string, [("region", "west"); ("region", "east")]%string,
    (fun s => if String.eqb s "x" then 5 else 2).
  repeat split.
  - constructor; [intros []|constructor].
  - intros v [<-|[]] [E|[E|[]]]; discriminate.
  - intros s [<-|[<-|[]]]; reflexivity.
  - intros q [<-|[]]. right. left. reflexivity.
  - intros v l [[= <- <-]|[[= <- <-]|[]]]; reflexivity.
  - cbn. ring.
Qed.

(** C83: whatever derivatives were asked for before, each order of derivative of a column formulation is
    the derivative of the order below, and order zero is the column. *)
Theorem C83_derivatives :
  forall (t : list factor) (levels indicators : list (string * string)) (level_of : string -> string)
         (columns : list expr) (raw : R -> string -> option R) (rho : string -> R) (s : string)
         (history : list (string * nat)),
  map fst levels = categories t ->
  NoDup (categories t) ->
  (forall v, In v (categories t) -> ~ In v (numeric_symbols t)) ->
  (forall s, In s (numeric_symbols t) -> has_bracket s = false) ->
  incl levels indicators ->
  (forall v l, In (v, l) indicators -> has_bracket v = false) ->
  In (column_expression t levels) columns ->
  has_bracket s = false ->
  (forall x n, In n (numeric_symbols t) -> raw x n = Some (set_var rho s x n)) ->
  exists f : nat -> R -> R,
    (forall x, f 0%nat x = design_value (set_var rho s x) level_of t levels) /\
    (forall order x,
       evaluate (underlying columns indicators (raw x) level_of)
         (fst (differentiate (column_expression t levels) (snd (calls (column_expression t levels) history)) s order))
       = Some (f order x)) /\
    (forall order x, (forall e, In (Numeric e) t -> defined (set_var rho s x) e) ->
       derivable_pt_lim (f order) x (f (S order) x)).
Proof. intros. apply column_derivatives; assumption. Qed.
Print Assumptions C83_derivatives.

(** The same for any expression, such as those of nonlinear cost or demographic formulas. *)
Theorem C83_expression_derivatives :
  forall (rho : string -> R) (s : string) (e : expr) (n : nat),
  defined rho e ->
  derivable_pt_lim (fun x => value (set_var rho s x) (Nat.iter n (diff s) e)) (rho s)
    (value rho (Nat.iter (S n) (diff s) e)).
Proof. exact iter_deriv. Qed.
Print Assumptions C83_expression_derivatives.

(** The cache does not change results: each call gives what a first call would. *)
Theorem C83_cache_transparent :
  forall (e : expr) (history : list (string * nat)),
  fst (calls e history) = map (fun no => fst (differentiate e [] (fst no) (snd no))) history.
Proof. intros e history. exact (proj1 (calls_ok e history)). Qed.
Print Assumptions C83_cache_transparent.

Example C83_applies : exists (rho : string -> R) (e : expr),
  defined rho e /\ value rho e = ln 2 * / 2 /\ In "prices"%string (free e).
Proof.
  exists (fun _ => 2), (Mul (Log (Sym "prices")) (Pow (Sym "prices") (-1))). cbn. repeat split.
  - lra.
  - intros _. lra.
  - rewrite Pos2Nat.inj_1, pow_1. reflexivity.
  - left. reflexivity.
Qed.

(** C84: a formula passes exactly when no marker C with arguments is inside anything and, if the
    outermost function is C, whatever is applied directly inside it is applied to variables. *)
Theorem C84_marker_validation :
  forall (f : func) (args : list tree),
  validate_categorical (TApp f args) 0 false = true <->
  (forall cs, inside (TApp FC cs) (TApp f args) -> cs = []) /\
  (f = FC -> forall g cs a, In (TApp g cs) args -> In a cs -> exists v, a = TSym v).
Proof.
  intros f args. rewrite validate_root. split; intros [A B]; (split; [exact A|]); intros F g cs a H1 H2.
  - specialize (B F g cs a H1 H2). destruct a; try discriminate. eauto.
  - destruct (B F g cs a H1 H2) as [v ->]. reflexivity.
Qed.
Print Assumptions C84_marker_validation.

(** That is less than a single variable: C(x + y), C(1) and C(x, y) pass. *)
Theorem C84_single_variable_refuted :
  exists x y : string,
  validate_categorical (TApp FC [TApp (FOther "Add") [TSym x; TSym y]]) 0 false = true /\
  validate_categorical (TApp FC [TNum]) 0 false = true /\
  validate_categorical (TApp FC [TSym x; TSym y]) 0 false = true.
Proof. exists "x"%string, "y"%string. repeat split. Qed.
Print Assumptions C84_single_variable_refuted.

Example C84_applies :
  validate_categorical (TApp FC [TSym "x"]) 0 false = true /\
  validate_categorical (TApp (FOther "log") [TApp FC [TSym "x"]]) 0 false = false /\
  inside (TApp FC [TSym "x"]) (TApp (FOther "log") [TApp FC [TSym "x"]]).
Proof. repeat split. constructor. left. reflexivity. Qed.

(** C85: tokens are accepted exactly when each of them is permitted and no name but a formula function
    is called; they reach the interpreter with every variable quoted. *)
Theorem C85_tokens :
  forall (tokens out : list tok),
  transform_tokens tokens false = Some out <->
  (forall k, In k tokens -> permitted_token k) /\
  (forall pre v post, tokens = pre ++ TokName v :: TokOp "(" :: post -> In v formula_functions) /\
  out = flat_map protect tokens.
Proof. exact transform_iff. Qed.
Print Assumptions C85_tokens.

(** So the interpreter sees no name that is not a formula function or a quoted symbol's constructor. *)
Theorem C85_interpreted_names :
  forall (tokens out : list tok),
  transform_tokens tokens false = Some out ->
  (forall pre s post, out = pre ++ TokName s :: post ->
     In s formula_functions \/
     (s = "Symbol"%string /\ exists v post', post = TokOp "(" :: TokQuoted v :: TokOp ")" :: post')) /\
  (forall s, In (TokOp s) out -> In s formula_operations) /\
  (forall s, ~ In (TokOther s) out).
Proof. exact transform_names. Qed.
Print Assumptions C85_interpreted_names.

Example C85_applies :
  transform_tokens [TokName "log"; TokOp "("; TokName "prices"; TokOp ")"] false
  = Some [TokName "log"; TokOp "("; TokName "Symbol"; TokOp "("; TokQuoted "prices"; TokOp ")"; TokOp ")"] /\
  transform_tokens [TokName "eval"; TokOp "("; TokNumber "1"; TokOp ")"] false = None.
Proof. split; reflexivity. Qed.
