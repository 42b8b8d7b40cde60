(** Models of the small array utilities in /repo/pyblp/utilities/basics.py.  IDs are integers, as in
    the order NumPy sorts them.  Definitions only. *)
From Coq Require Import Reals ZArith List Bool Arith Ascii.
Import ListNotations.
Local Open Scope Z_scope.

(** Insertion into a strictly sorted list. *)
Fixpoint insert_unique (x : Z) (l : list Z) : list Z :=
  match l with
  | [] => [x]
  | y :: l' => if x <? y then x :: l else if x =? y then l else y :: insert_unique x l'
  end.

(** [np.unique]: the sorted distinct values. *)
Definition np_unique (l : list Z) : list Z := fold_right insert_unique [] l.

(* ---------- Groups and get_indices ---------- *)

(** [changes] in [Groups.__init__] (505-506) and [get_indices] (415-416): the first element and every
    element that differs from the one before. *)
Fixpoint changes_after (previous : Z) (l : list Z) : list bool :=
  match l with
  | [] => []
  | x :: l' => negb (x =? previous) :: changes_after x l'
  end.
Definition changes (l : list Z) : list bool :=
  match l with [] => [] | x :: l' => true :: changes_after x l' end.

(** [np.nonzero(mask)[0]], with positions counted from k. *)
Fixpoint nonzero (k : nat) (mask : list bool) : list nat :=
  match mask with
  | [] => []
  | b :: mask' => if b then k :: nonzero (S k) mask' else nonzero (S k) mask'
  end.

(** The slices [l[i0:i1], l[i1:i2], ..., l[ik:]] between increasing indices: what [np.add.reduceat]
    sums, and what [np.split(l, indices)[1:]] returns. *)
Fixpoint slices {A} (l : list A) (indices : list nat) : list (list A) :=
  match indices with
  | [] => []
  | [i] => [skipn i l]
  | i :: ((j :: _) as rest) => firstn (j - i) (skipn i l) :: slices l rest
  end.

(** [np.cumsum(changes) - 1] at position k. *)
Definition cumulative_code (mask : list bool) (k : nat) : nat :=
  pred (List.length (filter (fun b => b) (firstn (S k) mask))).

(** Position of an index in a permutation: [sort_indices.argsort()]. *)
Fixpoint position (j : nat) (p : list nat) : nat :=
  match p with
  | [] => O
  | i :: p' => if Nat.eqb i j then O else S (position j p')
  end.

(** [Groups.__init__].  basics.py 499-520.  [p] is [flat.argsort()], a parameter because the default
    sort may order ties in any way. *)
Section Groups.
  Variables (ids : list Z) (p : list nat).
  Definition sorted_ids : list Z := map (fun j => nth j ids 0) p.
  Definition reduce_indices : list nat := nonzero 0 (changes sorted_ids).
  Definition group_unique : list Z := map (fun i => nth i sorted_ids 0) reduce_indices.
  Definition group_code (j : nat) : nat := cumulative_code (changes sorted_ids) (position j p).
  Definition group_count : nat := List.length reduce_indices.
  (** [np.diff(np.append(reduce_indices, codes.size))]. *)
  Fixpoint diffs (l : list nat) (last : nat) : list nat :=
    match l with
    | [] => []
    | [i] => [last - i]%nat
    | i :: ((j :: _) as rest) => (j - i)%nat :: diffs rest last
    end.
  Definition group_counts : list nat := diffs reduce_indices (List.length ids).

  (** [Groups.sum], [Groups.mean] and [Groups.expand] for one column of a matrix.  522-532. *)
  Definition group_sum (x : nat -> R) : list R :=
    map (fun s => fold_right Rplus 0%R (map x s)) (slices p reduce_indices).
  Definition group_mean (x : nat -> R) : list R :=
    map (fun sc => (fst sc / INR (snd sc))%R) (combine (group_sum x) group_counts).
  Definition group_expand (statistics : list R) (j : nat) : R := nth (group_code j) statistics 0%R.
End Groups.

(** [get_indices], as a list of keys and index arrays.  basics.py 408-418.  [p] is the stable argsort. *)
Definition get_indices (ids : list Z) (p : list nat) : list (Z * list nat) :=
  combine (group_unique ids p) (slices p (reduce_indices ids p)).

(** A stable argsort (insertion sort of positions by ID). *)
Fixpoint insert_by (key : nat -> Z) (j : nat) (l : list nat) : list nat :=
  match l with
  | [] => [j]
  | i :: l' => if key j <=? key i then j :: l else i :: insert_by key j l'
  end.
Definition stable_argsort (ids : list Z) : list nat :=
  fold_right (insert_by (fun j => nth j ids 0)) [] (seq 0 (List.length ids)).

(* ---------- Field names ---------- *)

(** Field names are lists of characters.  [decimal n] is [f'{n}']. *)
Local Open Scope nat_scope.
Definition name := list ascii.
Definition digit (d : nat) : ascii := ascii_of_nat (48 + d).
Fixpoint decimal_fuel (fuel n : nat) : name :=
  match fuel with
  | O => []
  | S fuel' => if n <? 10 then [digit n] else decimal_fuel fuel' (n / 10) ++ [digit (n mod 10)]
  end.
Definition decimal (n : nat) : name := decimal_fuel (S n) n.
Definition name_eqb (a b : name) : bool := if list_eq_dec ascii_dec a b then true else false.

(* ---------- Structured data ---------- *)

(** A matrix is its list of columns.  Arrays have at least one row, so a matrix has size zero exactly
    when it has no columns; one-dimensional arrays are their single column ([np.c_]). *)
Section Structured.
  Context {V : Type}.
  Definition matrix := list (list V).

  (** A mapping from names to matrices; a name that is absent raises. *)
  Definition mapping := list (name * matrix).
  Fixpoint lookup (m : mapping) (key : name) : option matrix :=
    match m with
    | [] => None
    | (k, v) :: m' => if name_eqb k key then Some v else lookup m' key
    end.

  (** The [while True] loop of [extract_matrix].  basics.py 235-251.  None: out of fuel.  The warning
      about a missing 0 is left out. *)
  Fixpoint extract_parts (fuel : nat) (m : mapping) (key : name) (index : nat) : option (list matrix) :=
    match fuel with
    | O => None
    | S fuel' =>
        match lookup m (key ++ decimal index) with
        | None => Some []
        | Some part =>
            match extract_parts fuel' m key (S index) with
            | None => None
            | Some parts => Some (match part with [] => parts | _ => part :: parts end)
            end
        end
    end.

  (** [extract_matrix].  basics.py 226-253.  The outer option is for fuel, the inner one is Python's
      [None].  The loop can find at most as many names as there are fields. *)
  Definition extract_matrix (m : mapping) (key : name) : option (option matrix) :=
    match lookup m key with
    | Some [] => Some None
    | Some v => Some (Some v)
    | None =>
        match extract_parts (S (List.length m)) m key 0 with
        | None => None
        | Some [] => Some None
        | Some parts => Some (Some (concat parts))
        end
    end.

  (** Assignment to a dictionary key: an existing key keeps its position. *)
  Fixpoint assign (m : mapping) (key : name) (v : matrix) : mapping :=
    match m with
    | [] => [(key, v)]
    | (k, w) :: m' => if name_eqb k key then (k, v) :: m' else (k, w) :: assign m' key v
    end.

  (** The loop over columns in [data_to_dict].  construction.py 602-607.  None: KeyError. *)
  Fixpoint split_columns (names : list name) (m : mapping) (key : name) (index : nat) (columns : matrix)
      : option mapping :=
    match columns with
    | [] => Some m
    | c :: columns' =>
        if existsb (name_eqb (key ++ decimal index)) names then None
        else split_columns names (assign m (key ++ decimal index) [c]) key (S index) columns'
    end.

  (** [data_to_dict] for matrices of at most two dimensions.  construction.py 550-609.  None: KeyError. *)
  Fixpoint dict_fields (ignore_empty : bool) (names : list name) (m : mapping) (fields : mapping) : option mapping :=
    match fields with
    | [] => Some m
    | (key, v) :: fields' =>
        match v with
        | [] => if ignore_empty then dict_fields ignore_empty names m fields'
                else dict_fields ignore_empty names (assign m key []) fields'
        | [c] => dict_fields ignore_empty names (assign m key [c]) fields'
        | _ => match split_columns names m key 0 v with
               | None => None
               | Some m' => dict_fields ignore_empty names m' fields'
               end
        end
    end.
  Definition data_to_dict (ignore_empty : bool) (fields : mapping) : option mapping :=
    dict_fields ignore_empty (map fst fields) [] fields.

  (** A field of a record array: its name, its title if it has one, and its matrix. *)
  Record field := { field_name : name; field_title : option nat; field_matrix : matrix }.
  (** A key of a mapping given to [structure_matrices]: a name or a (title, name) pair. *)
  Definition fkey : Type := option nat * name.
  Definition fkey_eqb (a b : fkey) : bool :=
    (match fst a, fst b with
     | None, None => true
     | Some x, Some y => Nat.eqb x y
     | _, _ => false
     end) && name_eqb (snd a) (snd b).

  (** [structure_matrices].  basics.py 190-210.  None: NumPy's error about repeated field names.  The
      number of rows and data types are not modelled. *)
  Fixpoint has_duplicates (names : list name) : bool :=
    match names with
    | [] => false
    | n :: names' => existsb (name_eqb n) names' || has_duplicates names'
    end.
  Definition structure_matrices (m : list (fkey * option matrix)) : option (list field) :=
    if has_duplicates (map (fun kv => snd (fst kv)) m) then None
    else Some (map (fun kv => {| field_name := snd (fst kv); field_title := fst (fst kv);
                                 field_matrix := match snd kv with None => [] | Some a => a end |}) m).

  (** [update_matrices].  basics.py 213-223. *)
  Definition update_matrices (fields : list field) (update : list (fkey * option matrix)) : option (list field) :=
    structure_matrices
      (update ++
       map (fun f => ((field_title f, field_name f), Some (field_matrix f)))
         (filter (fun f => negb (existsb (fun kv => fkey_eqb (fst kv) (None, field_name f)) update)) fields)).

  (** Reading a field of a record array. *)
  Definition read_field (fields : list field) (key : name) : option matrix :=
    match find (fun f => name_eqb (field_name f) key) fields with
    | Some f => Some (field_matrix f)
    | None => None
    end.
End Structured.

(* ---------- parallel ---------- *)

(** The process-wide state: the module variable [pool] (the number of worker processes) and dill's
    recursion setting. *)
Record pool_state := { pool : option nat; recurse : bool }.

(** Programs that use [parallel].  [Use] is a market-by-market computation, which records the pool it
    uses; [Raise] raises; [Parallel processes use_pathos body] is [with parallel(...): body], where
    [None] is an argument that is not an int; [Try body] swallows exceptions. *)
Inductive statement :=
| Use
| Raise
| Parallel (processes : option Z) (use_pathos : bool) (body : list statement)
| Try (body : list statement).

(** What happens: pools used by [Use], and pools started. *)
Inductive event := Used (p : option nat) | Started (n : nat).
Record result := { events : list event; state : pool_state; raised : bool }.

(** [parallel].  basics.py 49-169.  [pathos_installed] is whether both imports succeed.  [execute_body]
    runs the body.  Registration of pickling hooks, messages and the conversion of AttributeErrors are
    left out (a converted exception is still an exception). *)
Definition parallel (pathos_installed : bool) (execute_body : pool_state -> result)
    (processes : option Z) (use_pathos : bool) (s : pool_state) : result :=
  match processes with
  | None => {| events := []; state := s; raised := true |}
  | Some n =>
      if (n <? 1)%Z then {| events := []; state := s; raised := true |}
      else if (n =? 1)%Z then execute_body s
      else if use_pathos then
        if pathos_installed then
          let default := recurse s in
          let r := execute_body {| pool := Some (Z.to_nat n); recurse := true |} in
          {| events := Started (Z.to_nat n) :: events r;
             state := {| pool := None; recurse := default |};
             raised := raised r |}
        else {| events := []; state := s; raised := true |}
      else
        let r := execute_body {| pool := Some (Z.to_nat n); recurse := recurse s |} in
        {| events := Started (Z.to_nat n) :: events r;
           state := {| pool := None; recurse := recurse (state r) |};
           raised := raised r |}
  end.

Fixpoint execute (pathos_installed : bool) (c : statement) (s : pool_state) : result :=
  let run := fix run (body : list statement) (s : pool_state) : result :=
    match body with
    | [] => {| events := []; state := s; raised := false |}
    | c :: body' =>
        let r := execute pathos_installed c s in
        if raised r then r
        else let r' := run body' (state r) in
             {| events := events r ++ events r'; state := state r'; raised := raised r' |}
    end in
  match c with
  | Use => {| events := [Used (pool s)]; state := s; raised := false |}
  | Raise => {| events := []; state := s; raised := true |}
  | Parallel processes use_pathos body => parallel pathos_installed (run body) processes use_pathos s
  | Try body => let r := run body s in {| events := events r; state := state r; raised := false |}
  end.

Fixpoint execute_all (pathos_installed : bool) (body : list statement) (s : pool_state) : result :=
  match body with
  | [] => {| events := []; state := s; raised := false |}
  | c :: body' =>
      let r := execute pathos_installed c s in
      if raised r then r
      else let r' := execute_all pathos_installed body' (state r) in
           {| events := events r ++ events r'; state := state r'; raised := raised r' |}
  end.

(* ---------- Finite differences ---------- *)

Local Open Scope R_scope.
(** [x[index] += e] on a copy. *)
Definition bump (x : nat -> R) (index : nat) (e : R) : nat -> R :=
  fun i => if Nat.eqb i index then x i + e else x i.

(** One element of [compute_finite_differences], with [epsilon] already scaled.  basics.py 421-435. *)
Definition finite_difference (f : (nat -> R) -> R) (x : nat -> R) (epsilon : R) (index : nat) : R :=
  (f (bump x index (epsilon / 2)) - f (bump x index (- (epsilon / 2)))) / epsilon.

(** One element of [compute_second_finite_differences], with [epsilon] the square root of the scaled
    option.  basics.py 438-465. *)
Definition second_difference (f : (nat -> R) -> R) (x : nat -> R) (epsilon : R) (index1 index2 : nat) : R :=
  let x1 := bump (bump x index1 (epsilon / 2)) index2 (epsilon / 2) in
  let x2 := bump (bump x index1 (epsilon / 2)) index2 (- (epsilon / 2)) in
  let x3 := bump (bump x index1 (- (epsilon / 2))) index2 (epsilon / 2) in
  let x4 := bump (bump x index1 (- (epsilon / 2))) index2 (- (epsilon / 2)) in
  (f x1 - f x2 - f x3 + f x4) / epsilon ^ 2.
