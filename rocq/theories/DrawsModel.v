(** Loaded and simulated variables of a [Simulation].  pyblp/economies/simulation.py 499-590.

    Names of variables are any type with a decidable equality and the order by which Python sorts them.  The generator of
    random numbers is a stream of uniform numbers and a position in it, which is how the state that a seed gives rise
    to is used.  Fields are lists of columns, as [extract_matrix] finds them: none if there is no field.
    (Data types are not modelled.) *)
From Coq Require Import Reals List Bool Arith.
Import ListNotations.

Definition column := nat -> R.

Section Names.
  Variables (name : Type) (eqb leb : name -> name -> bool).
  (** Keys are names, or names with an index. *)
  Definition mapping (A : Type) := list (A * column).
  Definition mem (x : name) (l : list name) : bool := existsb (eqb x) l.
  (** [sorted(...)] *)
  Fixpoint insert (x : name) (l : list name) : list name :=
    match l with
    | [] => [x]
    | y :: rest => if leb x y then x :: l else y :: insert x rest
    end.
  Definition sorted (l : list name) : list name := fold_right insert [] l.
  Definition lookup (m : mapping name) (x : name) : option column :=
    match find (fun e => eqb x (fst e)) m with Some (_, c) => Some c | None => None end.
  Definition names_of (m : mapping name) : list name := map fst m.

  Variable stream : nat -> R.
  (** [state.uniform(size=n)]: draws and the next position. *)
  Definition uniform (n position : nat) : column * nat := (fun i => stream (position + i), position + n).

  Section Products.
    Variables (N : nat) (fields : name -> list column).
    (** One variable; None is a ValueError because the field has more than one column.  simulation.py 533-540. *)
    Definition load_variable (state : mapping name * nat) (x : name) : option (mapping name * nat) :=
      let (m, position) := state in
      match fields x with
      | [] => let (c, next) := uniform N position in Some ((x, c) :: m, next)
      | [c] => Some ((x, c) :: m, position)
      | _ => None
      end.
    Fixpoint load_variables (state : mapping name * nat) (l : list name) : option (mapping name * nat) :=
      match l with
      | [] => Some state
      | x :: rest => match load_variable state x with None => None | Some s => load_variables s rest end
      end.
    (** [sorted(formulation._names - set(product_mapping))], where names are a set that is iterated over in some order.
        reserved are the names of other keys.  simulation.py 529-533. *)
    Definition missing_names (reserved : list name) (m : mapping name) (names : list name) : list name :=
      sorted (filter (fun x => negb (mem x reserved) && negb (mem x (names_of m))) names).
    Fixpoint load_formulations (reserved : list name) (state : mapping name * nat) (formulations : list (list name))
        : option (mapping name * nat) :=
      match formulations with
      | [] => Some state
      | names :: rest => match load_variables state (missing_names reserved (fst state) names) with
                         | None => None
                         | Some s => load_formulations reserved s rest
                         end
      end.

    (** Shares and prices.  counts i is the number of products in the market of product i.  simulation.py 507-513. *)
    Variable counts : nat -> nat.
    Definition initial_shares (shares : option column) (position : nat) : column * nat :=
      match shares with
      | Some c => (c, position)
      | None => let (u, next) := uniform N position in (fun i => (u i / INR (counts i))%R, next)
      end.
    Definition initial_prices (prices : option column) (position : nat) : column * nat :=
      match prices with Some c => (c, position) | None => uniform N position end.
    Record product_draws := { drawn_shares : column; drawn_prices : column; drawn_variables : mapping name; next_position : nat }.
    Definition load_products (reserved : list name) (shares prices : option column) (formulations : list (list name)) : option product_draws :=
      let (s, after_shares) := initial_shares shares 0 in
      let (p, after_prices) := initial_prices prices after_shares in
      match load_formulations reserved ([], after_prices) formulations with
      | None => None
      | Some (m, position) => Some {| drawn_shares := s; drawn_prices := p; drawn_variables := m; next_position := position |}
      end.
  End Products.

  Section Agents.
    Variables (I : nat) (fields : name -> list column).
    (** Fields with several columns become fields with indices.  simulation.py 576-587. *)
    Definition load_agent_variable (state : mapping (name * option nat) * nat) (x : name) : mapping (name * option nat) * nat :=
      let (m, position) := state in
      match fields x with
      | [] => let (c, next) := uniform I position in (((x, None), c) :: m, next)
      | [c] => (((x, None), c) :: m, position)
      | l => (rev (combine (map (fun j => (x, Some j)) (seq 0 (length l))) l) ++ m, position)
      end.
    Definition load_agents (reserved names : list name) (position : nat) : mapping (name * option nat) * nat :=
      fold_left load_agent_variable (sorted (filter (fun x => negb (mem x reserved)) names)) ([], position).
  End Agents.
End Names.
