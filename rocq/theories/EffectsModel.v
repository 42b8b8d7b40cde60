(** Formulas with absorbed fixed effects: [Formulation.__init__] and [Formulation._build_ids].
    /repo/pyblp/configurations/formulation.py 104-144 and 244-270, /repo/pyblp/utilities/basics.py 279-284.  Definitions only.
    Patsy, which splits formulas into terms and terms into factors, is external: parsed terms are given. *)
From Coq Require Import List Bool Arith ZArith String.
Import ListNotations.
Local Open Scope string_scope.
Local Open Scope list_scope.

(** A factor of a term: a variable, a variable marked as categorical, or a function of variables.  A term is a list of factors,
    without any for the intercept. *)
Inductive factor := Plain (v : string) | Marked (v : string) | Compound (vs : list string).
Definition term := list factor.
Definition intercept : term := [].
Definition is_intercept (t : term) : bool := match t with [] => true | _ => false end.
Definition factor_names (f : factor) : list string := match f with Plain v | Marked v => [v] | Compound vs => vs end.
Definition names (t : term) : list string := flat_map factor_names t.
(** [not e.free_symbols] *)
Definition constant (t : term) : bool := match names t with [] => true | _ => false end.

Record formulation := mk_formulation { f_terms : list term; f_absorbed : list term }.
(** [Formulation.__init__] for strings that Patsy parses, without validation of other arguments.  [formula] and [absorb] are
    parsed terms, those of [absorb] including an intercept if there is one, which [- 1] removes.  None: PatsyError.
    formulation.py 119-137. *)
Definition configure (formula : list term) (absorb : option (list term)) : option formulation :=
  let absorbed := match absorb with Some a => filter (fun t => negb (is_intercept t)) a | None => [] end in
  let terms := match absorbed with [] => formula | _ => filter (fun t => negb (is_intercept t)) formula end in
  match terms with
  | [] => None
  | _ =>
      if Nat.ltb 1 (List.length (filter constant terms)) then None
      else if existsb constant absorbed then None
      else Some (mk_formulation terms absorbed)
  end.

(** A variable: its values, represented by integers, and whether they are categorical (strings and booleans) rather than
    numbers. *)
Record column := mk_column { categorical : bool; cells : list Z }.
Definition data := string -> option column.

(** The column of a factor.  None: the factor is not categorical, or a field is missing.  formulation.py 249-269.
    What is marked as categorical is taken to be a variable. *)
Definition factor_column (d : data) (f : factor) : option (list Z) :=
  match f with
  | Plain v => match d v with Some c => if categorical c then Some (cells c) else None | None => None end
  | Marked v => match d v with Some c => Some (cells c) | None => None end
  | Compound _ => None
  end.
Fixpoint all_some {A} (l : list (option A)) : option (list A) :=
  match l with
  | [] => Some []
  | None :: _ => None
  | Some a :: l => match all_some l with Some r => Some (a :: r) | None => None end
  end.
(** [zip]: rows up to the shortest column. *)
Fixpoint zip (columns : list (list Z)) (n : nat) : list (list Z) :=
  match n with
  | 0 => []
  | S n =>
      match all_some (map (@hd_error Z) columns) with
      | Some row => row :: zip (map (@tl Z) columns) n
      | None => []
      end
  end.
(** [interact_ids]: values, or tuples of values, as lists.  Tuples are assigned to the array of the first column: there are as many
    rows, or a single tuple is broadcast, or else there is an error.  utilities/basics.py 279-284. *)
Definition interact_ids (columns : list (list Z)) : option (list (list Z)) :=
  match columns with
  | [] => None
  | c :: _ =>
      let rows := zip columns (List.length c) in
      if Nat.eqb (List.length rows) (List.length c) then Some rows
      else match rows with [row] => Some (repeat row (List.length c)) | _ => None end
  end.
(** [_build_ids]: one column for each term.  Columns of different lengths cannot be stacked. *)
Definition term_ids (d : data) (t : term) : option (list (list Z)) :=
  match all_some (map (factor_column d) t) with
  | Some columns => interact_ids columns
  | None => None
  end.
Definition build_ids (d : data) (f : formulation) : option (list (list (list Z))) :=
  match all_some (map (term_ids d) (f_absorbed f)) with
  | Some (c :: cs) => if forallb (fun c' => Nat.eqb (List.length c') (List.length c)) cs then Some (c :: cs) else None
  | _ => None
  end.
