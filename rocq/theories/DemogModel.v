(** Demographics of agents, standard or product-specific: [build_demographics] and [Agents] in pyblp/primitives.py,
    [Formulation._build_matrix] in pyblp/configurations/formulation.py, and how [Market] uses them.

    Simplified: variables are numeric (no categorical variables) and one-dimensional; a column of the design matrix is a
    function of the variables in a row, which may be undefined (NaN); Patsy raises an error if there are missing values
    in a column (it looks at factors of columns). *)
From Coq Require Import Reals List Bool Arith String DecimalString Decimal.
From Verif Require Import FltModel.
Import ListNotations.
Local Open Scope string_scope.
Local Open Scope list_scope.

Definition column := nat -> flt.
(** [agent_data]: fields and their values in each row. *)
Definition data := list (string * column).
Fixpoint field (d : data) (name : string) : option column :=
  match d with
  | [] => None
  | (n, c) :: rest => if String.eqb n name then Some c else field rest name
  end.
(** [f'{name}{fallback_index}'] *)
Definition indexed (name : string) (j : nat) : string := (name ++ NilZero.string_of_uint (Nat.to_uint j))%string.

(** A formulation: names of variables, and its columns as functions of variables. *)
Record formulation := { names : list string; columns : list ((string -> flt) -> flt) }.
(** Rows and columns. *)
Definition matrix := nat -> nat -> flt.

(** One variable, with or without a fallback index.  formulation.py 185-201. *)
Definition load (d : data) (fallback : option nat) (name : string) : option column :=
  match field d name with
  | Some c => Some c
  | None => match fallback with None => None | Some j => field d (indexed name j) end
  end.
Fixpoint load_all (d : data) (fallback : option nat) (l : list string) : option data :=
  match l with
  | [] => Some []
  | n :: rest => match load d fallback n, load_all d fallback rest with
                 | Some c, Some m => Some ((n, c) :: m)
                 | _, _ => None
                 end
  end.
(** Variables of a row. *)
Definition row (m : data) (i : nat) (name : string) : flt := match field m name with Some c => c i | None => NaN end.
Definition design (f : formulation) (m : data) : matrix := fun i k => nth k (columns f) (fun _ => NaN) (row m i).
Definition any_entry (test : flt -> bool) (I K : nat) (m : matrix) : bool :=
  existsb (fun i => existsb (fun k => test (m i k)) (seq 0 K)) (seq 0 I).
(** [Formulation._build_matrix] for I rows of data; None is a PatsyError.  formulation.py 171-242, 470-485. *)
Definition build_matrix (f : formulation) (I : nat) (d : data) (fallback : option nat) (ignore_na : bool) : option matrix :=
  match load_all d fallback (names f) with
  | None => None
  | Some m => if negb ignore_na && any_entry fnan I (List.length (columns f)) (design f m) then None else Some (design f m)
  end.

Inductive outcome := Standard (m : matrix) | Stacked (l : list matrix)
  | LoadError            (* the PatsyError of the first attempt *)
  | MissingProduct (j : nat)   (* ValueError: at least one missing demographic for product index j *)
  | NotFinite.           (* ValueError: should not have NaNs or infinities *)

(** The loop over product indices j, j + 1, ..., of which n are left.  primitives.py 589-603. *)
Fixpoint stack (f : formulation) (I : nat) (d : data) (j n : nat) (stacked : list matrix) : outcome :=
  match n with
  | O => Stacked stacked
  | S n' => match build_matrix f I d (Some j) true with
            | Some m => stack f I d (S j) n' (stacked ++ [m])
            | None => if Nat.eqb j 0 then LoadError else MissingProduct j
            end
  end.
(** [build_demographics].  max_J is the number of products in the largest market.  primitives.py 575-608. *)
Definition build_demographics (f : formulation) (I max_J : nat) (d : data) : outcome :=
  match build_matrix f I d None false with
  | Some m => Standard m
  | None => stack f I d 0 max_J []
  end.
(** What [Agents] does with them.  primitives.py 343-348. *)
Definition agent_demographics (f : formulation) (I max_J : nat) (d : data) : outcome :=
  match build_demographics f I max_J d with
  | Standard m => if any_entry (fun x => negb (ffin x)) I (List.length (columns f)) m then NotFinite else Standard m
  | other => other
  end.

(** Demographics in a market with J products, which drops those of other indices.  market.py 113-115. *)
Definition market_demographics (J : nat) (o : outcome) : outcome :=
  match o with Stacked l => Stacked (firstn J l) | other => other end.

(** Random coefficients of agent i before they are transformed, and mu, for product j.  market.py 184-192, 229-240.
    Sums are over K2 columns of X2 and of nodes, and D demographics. *)
Fixpoint fsumn (n : nat) (f : nat -> flt) : flt := match n with O => Num 0 | S m => fadd (fsumn m f) (f m) end.
Definition demographic (o : outcome) (i d j : nat) : flt :=
  match o with
  | Standard m => m i d
  | Stacked l => nth j l (fun _ _ => NaN) i d
  | _ => NaN
  end.
Section Market.
  Variables (K2 D : nat) (sigma pi : nat -> nat -> flt) (nodes : nat -> nat -> flt) (transform : nat -> flt -> flt) (X2 : nat -> nat -> flt).
  Definition coefficient (o : outcome) (i k j : nat) : flt :=
    let c := fsumn K2 (fun l => fmul (sigma k l) (nodes i l)) in
    transform k (if Nat.ltb 0 D then fadd c (fsumn D (fun d => fmul (pi k d) (demographic o i d j))) else c).
  Definition mu (o : outcome) (i j : nat) : flt := fsumn K2 (fun k => fmul (X2 j k) (coefficient o i k j)).
End Market.
