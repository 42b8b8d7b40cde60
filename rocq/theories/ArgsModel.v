(** Model of how arguments that select products, variables, and draws are validated and used. *)
From Coq Require Import Reals ZArith List Bool Arith String Ascii.
From Verif Require Import Base FltModel DemandModel SupplyModel WelfareModel.
Import ListNotations.

(** Product IDs are arbitrary objects; numbers and strings stand for them. *)
Inductive pid := Numeric (z : Z) | Textual (s : string).
Definition pid_eqb (p q : pid) : bool :=
  match p, q with Numeric a, Numeric b => Z.eqb a b | Textual s, Textual t => String.eqb s t | _, _ => false end.

(** [p in t] for strings: whether p is a substring of t. *)
Fixpoint contains (p t : string) : bool :=
  String.prefix p t || match t with EmptyString => false | String _ t' => contains p t' end.

(** What is passed as [eliminate_product_ids], and [product_id in eliminate_product_ids].  None: Python raises a
    TypeError, because only strings can be looked for in a string.  economy_results_market.py 435. *)
Inductive selection := Items (l : list pid) | Text (t : string).
Definition member (p : pid) (e : selection) : option bool :=
  match e, p with
  | Items l, _ => Some (existsb (pid_eqb p) l)
  | Text t, Textual s => Some (contains s t)
  | Text _, Numeric _ => None
  end.

(** The loop over the products of a market with IDs [ids j] in the chosen column: None if it raises.
    economy_results_market.py 432-436. *)
Definition eliminated (J : nat) (ids : nat -> pid) (e : selection) : option (nat -> bool) :=
  if forallb (fun j => match member (ids j) e with Some _ => true | None => false end) (seq 0 J)
  then Some (fun j => match member (ids j) e with Some b => b | None => false end) else None.

(** Python values that are passed as indices.  [isinstance(True, int)] holds, and True and False are then 1 and 0. *)
Inductive pyval := PyInt (z : Z) | PyBool (b : bool) | PyOther.
Definition as_int (v : pyval) : option Z :=
  match v with PyInt z => Some z | PyBool b => Some (if b then 1 else 0)%Z | PyOther => None end.

Inductive complaint := NotAnInteger | NoProductIds | TooLarge (limit : nat).
(** [_validate_product_ids_index] with product IDs that have the given numbers of rows and columns.
    economy.py 289-297. *)
Definition validate_index (rows columns : nat) (v : pyval) : nat + complaint :=
  match as_int v with
  | None => inr NotAnInteger
  | Some z =>
      if (z <? 0)%Z then inr NotAnInteger
      else if Nat.eqb (rows * columns) 0 then inr NoProductIds
      else if ((0 <=? z) && (z <=? Z.of_nat (columns - 1)))%Z then inl (Z.to_nat z) else inr (TooLarge (columns - 1))
  end.

(** [compute_consumer_surpluses] in one market with product IDs [ids j c]; [warned] is whether there is a warning about
    strings.  economy_results.py 1136-1151, economy_results_market.py 398-461 ([consumer_surplus]). *)
Inductive answer := Surplus (warned : bool) (value : R) | Refused (why : complaint) | TypeFailure.
Definition surplus_answer (M : full_market) (avail : nat -> option (nat -> R)) (x : nat -> R) (rows columns : nat) (ids : nat -> nat -> pid)
    (e : option selection) (v : pyval) : answer :=
  match e with
  | None => Surplus false (consumer_surplus M avail None x)
  | Some e =>
      match validate_index rows columns v with
      | inr c => Refused c
      | inl c =>
          match eliminated (mJ (fm M)) (fun j => ids j c) e with
          | None => TypeFailure
          | Some mask => Surplus (match e with Text _ => true | Items _ => false end) (consumer_surplus M avail (Some mask) x)
          end
      end
  end.

(** [_validate_name]: None is [none_valid]; the names are those of variables in each column of X1, X2, and X3.
    economy.py 280-287. *)
Definition validate_name (X1 X2 X3 : list (list string)) (none_valid : bool) (name : option string) : bool :=
  match name with
  | None => none_valid
  | Some n => existsb (String.eqb n) (List.concat (X1 ++ X2 ++ X3)%list)
  end.

(** [extract_size] of something with a shape, such as a structured array or a data frame, or of a mapping from names to
    fields, which have a shape, have a length, or have neither.  None: a TypeError.  basics.py 256-276. *)
Inductive field := Shaped (n : nat) | Sized (n : nat) | Neither.
Inductive table := WithShape (n : nat) | Mapping (fields : list field).
Definition getters (t : table) : list (option nat) :=
  [match t with WithShape n => Some n | Mapping _ => None end;
   match t with Mapping (Shaped n :: _) => Some n | _ => None end;
   match t with Mapping (Shaped n :: _) | Mapping (Sized n :: _) => Some n | _ => None end;
   match t with WithShape n => Some n | Mapping l => Some (List.length l) end].
Fixpoint first_success (l : list (option nat)) : nat := match l with [] => 0%nat | Some n :: _ => n | None :: l' => first_success l' end.
Definition extract_size (t : table) : option nat := let size := first_success (getters t) in if Nat.ltb 0 size then Some size else None.

(** [compute_condition_number] (algebra.py 14-23) with an oracle for [np.linalg.cond], None if it raises, and
    [precisely_identify_singularity] (algebra.py 26-36): singular, successful, condition. *)
Definition condition_number (entries : list flt) (cond : option flt) : flt :=
  match entries with
  | [] => Num 0
  | _ => if forallb ffin entries then match cond with Some c => c | None => NaN end else NaN
  end.
Definition identify_singularity (tol : flt) (entries : list flt) (cond : option flt) : bool * bool * flt :=
  if fltb tol PInf then
    let c := condition_number entries cond in
    let successful := negb (fnan c) in (successful && fltb tol c, successful, c)
  else (false, true, NaN).

(** [_detect_singularity]: the warnings in order.  economy.py 237-249. *)
Inductive alarm := ConditionFailed | NearlySingular (c : flt) | ExactlySingular (c : flt).
Definition detect_singularity (tol : flt) (entries : list flt) (cond : option flt) : list alarm :=
  let '(singular, successful, c) := identify_singularity tol entries cond in
  ((if successful then [] else [ConditionFailed]) ++ (if singular then [if fltb c PInf then NearlySingular c else ExactlySingular c] else []))%list.

(** [np.atleast_3d] on shapes, and [_coerce_matrices], [_coerce_optional_delta], [_coerce_optional_costs], [_coerce_optional_prices], and
    [_coerce_optional_shares] of bootstrapped results: whether what was passed is accepted.  The sizes are those of the selected markets.
    bootstrapped_results.py 282-328. *)
Definition atleast_3d (shape : list nat) : list nat :=
  match shape with [] => [1; 1; 1] | [n] => [1; n; 1] | [m; n] => [m; n; 1] | s => s end%nat.
Definition shape_eqb (s t : list nat) : bool := if list_eq_dec Nat.eq_dec s t then true else false.
Definition coerce_matrices (draws : nat) (sizes : list nat) (shape : list nat) : bool := shape_eqb (atleast_3d shape) [draws; list_sum sizes; list_max sizes].
Definition coerce_vectors (draws : nat) (sizes : list nat) (shape : option (list nat)) : bool :=
  match shape with None => true | Some s => shape_eqb (atleast_3d s) [draws; list_sum sizes; 1%nat] end.
