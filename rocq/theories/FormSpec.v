(** What formulas mean, independently of how the code evaluates them. *)
From Coq Require Import Reals List Bool Arith ZArith Ascii String.
From Verif Require Import FormModel.
Import ListNotations.
Local Open Scope R_scope.

(** The value of an expression when every variable has a value. *)
Fixpoint value (rho : string -> R) (e : expr) : R :=
  match e with
  | Const c => c
  | Sym s => rho s
  | Add a b => value rho a + value rho b
  | Mul a b => value rho a * value rho b
  | Pow a n => powerRZ (value rho a) n
  | Exp a => exp (value rho a)
  | Log a => ln (value rho a)
  end.

(** No logarithm of a number that is not positive and no division by zero. *)
Fixpoint defined (rho : string -> R) (e : expr) : Prop :=
  match e with
  | Const _ | Sym _ => True
  | Add a b | Mul a b => defined rho a /\ defined rho b
  | Pow a n => defined rho a /\ ((n < 0)%Z -> value rho a <> 0)
  | Exp a => defined rho a
  | Log a => defined rho a /\ 0 < value rho a
  end.

Definition set_var (rho : string -> R) (s : string) (x : R) : string -> R :=
  fun t => if String.eqb t s then x else rho t.

(** Categorical variables of a term and symbols in its numerical factors. *)
Fixpoint categories (t : list factor) : list string :=
  match t with [] => [] | Numeric _ :: t' => categories t' | Categorical v :: t' => v :: categories t' end.
Fixpoint numeric_symbols (t : list factor) : list string :=
  match t with [] => [] | Numeric e :: t' => free e ++ numeric_symbols t' | Categorical _ :: t' => numeric_symbols t' end.

(** The entry of a design matrix column: the product of numerical factors and of indicators for the
    column's levels. *)
Fixpoint design_value (rho : string -> R) (level_of : string -> string)
    (t : list factor) (levels : list (string * string)) : R :=
  match t with
  | [] => 1
  | Numeric e :: t' => value rho e * design_value rho level_of t' levels
  | Categorical v :: t' =>
      match levels with
      | (_, l) :: ls => (if String.eqb (level_of v) l then 1 else 0) * design_value rho level_of t' ls
      | [] => 0
      end
  end.

(** Names without an opening bracket, as Python identifiers are. *)
Fixpoint has_bracket (s : string) : bool :=
  match s with EmptyString => false | String c s' => Ascii.eqb c "["%char || has_bracket s' end.

(** [C(...)] with arguments somewhere strictly inside a tree. *)
Inductive inside : tree -> tree -> Prop :=
| inside_arg : forall f args a, In a args -> inside a (TApp f args)
| inside_deeper : forall f args a b, In a args -> inside b a -> inside b (TApp f args).

(** A sequence of calls, the latest first: its caches and results. *)
Fixpoint calls (e : expr) (l : list (string * nat)) : list expr * cache :=
  match l with
  | [] => ([], [])
  | (n, o) :: l' => let '(rs, c) := calls e l' in let '(r, c') := differentiate e c n o in (r :: rs, c')
  end.


(** Functions that a formula may call, names that it may not use, and its operations. *)
Definition formula_functions : list string := ["I"; "C"; "log"; "exp"]%string.
Definition reserved_names : list string := ["Add"; "Mul"; "Pow"; "Integer"; "Float"; "Symbol"; "Intercept"]%string.
Definition formula_operations : list string := ["+"; "-"; "*"; "/"; "**"; "("; ")"]%string.

(** Tokens that a formula may contain. *)
Definition permitted_token (k : tok) : Prop :=
  match k with
  | TokName s => ~ In s reserved_names
  | TokOp s => In s formula_operations
  | TokNumber _ | TokNewline | TokEnd => True
  | TokOther _ | TokQuoted _ => False
  end.

(** How an accepted token reaches the interpreter: variables as quoted symbols, the rest unchanged. *)
Definition protect (k : tok) : list tok :=
  match k with
  | TokName s => if existsb (String.eqb s) formula_functions then [k]
                 else [TokName "Symbol"; TokOp "("; TokQuoted s; TokOp ")"]
  | _ => [k]
  end.
