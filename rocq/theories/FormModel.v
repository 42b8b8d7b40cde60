(** Model of formulas: /repo/pyblp/configurations/formulation.py.  Definitions only.

    Patsy splits a formula into terms and terms into factors, decides which levels of categorical
    factors get a column, and multiplies; SymPy parses and differentiates.  They are external: terms
    and columns are given, and expressions are trees of the operations that are let through. *)
From Coq Require Import Reals List Bool Arith ZArith String Ascii.
Import ListNotations.
Local Open Scope string_scope.

(** SymPy expressions that formulas can give rise to (formulation.py 506-533).  Exponents are
    integers; other exponents are left out.  Division is a power of -1. *)
Inductive expr :=
| Const (c : R)
| Sym (s : string)
| Add (a b : expr)
| Mul (a b : expr)
| Pow (a : expr) (n : Z)
| Exp (a : expr)
| Log (a : expr).

(** [free_symbols] *)
Fixpoint free (e : expr) : list string :=
  match e with
  | Const _ => []
  | Sym s => [s]
  | Add a b | Mul a b => free a ++ free b
  | Pow a _ | Exp a | Log a => free a
  end.

(** [expression.replace(base_symbol, full_symbol)] *)
Fixpoint replace (s : string) (by_ : expr) (e : expr) : expr :=
  match e with
  | Const c => Const c
  | Sym t => if String.eqb t s then by_ else Sym t
  | Add a b => Add (replace s by_ a) (replace s by_ b)
  | Mul a b => Mul (replace s by_ a) (replace s by_ b)
  | Pow a n => Pow (replace s by_ a) n
  | Exp a => Exp (replace s by_ a)
  | Log a => Log (replace s by_ a)
  end.

(** [get_symbol_data]: the override if it has the name, otherwise the data.  585-591. *)
Definition symbol_data (data override_ : string -> option R) (s : string) : option R :=
  match override_ s with Some v => Some v | None => data s end.

Definition lift2 (f : R -> R -> R) (a b : option R) : option R :=
  match a, b with Some x, Some y => Some (f x y) | _, _ => None end.
Definition lift1 (f : R -> R) (a : option R) : option R :=
  match a with Some x => Some (f x) | None => None end.

(** [evaluate_expression] for one row; None is a KeyError.  566-582. *)
Fixpoint evaluate (look : string -> option R) (e : expr) : option R :=
  match e with
  | Const c => Some c
  | Sym s => look s
  | Add a b => lift2 Rplus (evaluate look a) (evaluate look b)
  | Mul a b => lift2 Rmult (evaluate look a) (evaluate look b)
  | Pow a n => lift1 (fun x => powerRZ x n) (evaluate look a)
  | Exp a => lift1 exp (evaluate look a)
  | Log a => lift1 ln (evaluate look a)
  end.

(** SymPy's [diff], without its simplifications other than that of zeroth powers. *)
Fixpoint diff (s : string) (e : expr) : expr :=
  match e with
  | Const _ => Const 0
  | Sym t => if String.eqb t s then Const 1 else Const 0
  | Add a b => Add (diff s a) (diff s b)
  | Mul a b => Add (Mul (diff s a) b) (Mul a (diff s b))
  | Pow a n => if Z.eqb n 0 then Const 0 else Mul (Mul (Const (IZR n)) (Pow a (n - 1))) (diff s a)
  | Exp a => Mul (Exp a) (diff s a)
  | Log a => Mul (Pow a (-1)) (diff s a)
  end.

(** [ColumnFormulation.differentiate] with its cache of derivatives.  349-356. *)
Definition cache := list ((string * nat) * expr).
Fixpoint cached (c : cache) (name : string) (order : nat) : option expr :=
  match c with
  | [] => None
  | ((n, o), e) :: c' => if String.eqb n name && Nat.eqb o order then Some e else cached c' name order
  end.
Definition differentiate (e : expr) (c : cache) (name : string) (order : nat) : expr * cache :=
  match cached c name order with
  | Some d => (d, c)
  | None => let d := Nat.iter order (diff name) e in (d, ((name, order), d) :: c)
  end.

(** A factor of a Patsy term: a numerical expression, or a categorical variable (marked by the
    function C or not numerical). *)
Inductive factor := Numeric (e : expr) | Categorical (v : string).

(** [parse_term_expression]; the marker C has become the identity.  488-498, 559-563. *)
Definition factor_expression (f : factor) : expr := match f with Numeric e => e | Categorical v => Sym v end.
Definition term_expression (t : list factor) : expr :=
  fold_left (fun acc f => Mul acc (factor_expression f)) t (Const 1).

(** [parse_full_symbol]: the name of an indicator, for example x['a'].  420-426, 448-453. *)
Definition full_symbol (v level : string) : string := v ++ "[" ++ level ++ "]".

(** [ColumnFormulation.__init__]: one level for each categorical factor of the term, in order.
    305-317. *)
Definition column_expression (t : list factor) (levels : list (string * string)) : expr :=
  fold_left (fun e vl => replace (fst vl) (Sym (full_symbol (fst vl) (snd vl))) e) levels (term_expression t).

(** The underlying data of a row: variables that appear in a column formulation, and indicators.
    [raw] is the row of numerical data, [level_of] its level of each categorical variable, and
    [indicators] the categorical factors with all of their levels.  Indicators are stored last.
    222-238. *)
Definition underlying (columns : list expr) (indicators : list (string * string))
    (raw : string -> option R) (level_of : string -> string) (name : string) : option R :=
  if existsb (fun e => existsb (String.eqb name) (free e)) columns then
    match find (fun vl => String.eqb (full_symbol (fst vl) (snd vl)) name) (rev indicators) with
    | Some (v, l) => Some (if String.eqb (level_of v) l then 1%R else 0%R)
    | None => raw name
    end
  else None.

(* ---------- validation of the marker for categorical variables ---------- *)

(** Parsed but unevaluated trees: symbols, numbers, and applications. *)
Inductive func := FC | FI | FOther (s : string).
Inductive tree := TSym (s : string) | TNum | TApp (f : func) (args : list tree).

Definition is_C (f : func) : bool := match f with FC => true | _ => false end.
Definition is_symbol (t : tree) : bool := match t with TSym _ => true | _ => false end.

(** [validate_categorical]: false is a ValueError.  539-550. *)
Fixpoint validate_categorical (candidate : tree) (depth : nat) (categorical : bool) : bool :=
  negb (categorical && Nat.ltb 1 depth) &&
  match candidate with
  | TApp f args =>
      forallb (fun arg => negb (categorical && negb (is_symbol arg))
                          && validate_categorical arg (S depth) (is_C f)) args
  | _ => true
  end.

(* ---------- validation of tokens ---------- *)

(** Tokens by their code; [TokQuoted] is [repr(value)] in the output. *)
Inductive tok := TokName (s : string) | TokOp (s : string) | TokNumber (s : string) | TokNewline | TokEnd
               | TokOther (s : string) | TokQuoted (s : string).

Definition mem (s : string) (l : list string) : bool := existsb (String.eqb s) l.
Definition function_names : list string := ["I"; "C"; "log"; "exp"].
Definition class_names : list string := ["Add"; "Mul"; "Pow"; "Integer"; "Float"; "Symbol"].
Definition operations : list string := ["+"; "-"; "*"; "/"; "**"; "("; ")"].

(** [transform_tokens]; None is a ValueError.  516-536. *)
Fixpoint transform_tokens (tokens : list tok) (candidate : bool) : option (list tok) :=
  match tokens with
  | [] => Some []
  | t :: rest =>
      match t with
      | TokOther _ | TokQuoted _ => None
      | TokOp s =>
          if negb (mem s operations) then None
          else if String.eqb s "(" && candidate then None
          else match transform_tokens rest false with Some r => Some (t :: r) | None => None end
      | TokName s =>
          if mem s function_names then
            match transform_tokens rest false with Some r => Some (t :: r) | None => None end
          else if mem s (class_names ++ ["Intercept"]) then None
          else match transform_tokens rest true with
               | Some r => Some (TokName "Symbol" :: TokOp "(" :: TokQuoted s :: TokOp ")" :: r)
               | None => None
               end
      | _ => match transform_tokens rest false with Some r => Some (t :: r) | None => None end
      end
  end.
