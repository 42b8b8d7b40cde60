(** Model of matrices of choice probabilities and of shares that are computed after estimation, from arrays
    of all products and all agents.  Market IDs are integers.  Definitions only. *)
From Coq Require Import Reals ZArith List Bool Arith.
From Verif Require Import Base DemandModel SupplyModel BasicsModel SchedModel PostModel.
Import ListNotations.
Local Open Scope R_scope.

(** Product data and parameters, for all markets: row by row.  primitives.py 55-280, economy.py 70-170.
    [e_order] is the stable argsort of market IDs, [e_nest i] the position of row i's nesting ID among
    [unique_nesting_ids] and [e_H] their number (zero without nesting), [e_rho_size] the number of
    elements of rho.  Columns of X1 and X2 are functions of prices, all other data fixed, and [e_x2] is the
    stored X2 (see [column] in SupplyModel.v, here for rows of all product data). *)
Record economy := mk_economy {
  e_ids : list Z;
  e_order : list nat;
  e_H : nat;
  e_nest : nat -> nat;
  e_rho_size : nat;
  e_rho : nat -> R;
  e_eps : R;
  e_K1 : nat;
  e_X1 : nat -> column;
  e_beta : nat -> R;
  e_K2 : nat;
  e_X2 : nat -> column;
  e_x2 : nat -> nat -> R;
  e_prices : nat -> R;
  e_delta : nat -> R
}.

(** Agents, for all markets: those of the problem, or those built from [agent_data] and [integration].
    economy_results.py 1208-1214, primitives.py 305-434.  [p_coef n k j] is agent row n's random coefficient
    on column k of X2 (it depends on the position j of a product in its market only if demographics are
    product-specific; market.py 183-210).  Availability is zero or one.  If X2 is not formulated, there is
    one agent with weight one for each market (primitives.py 325-334). *)
Record population := mk_population {
  p_ids : list Z;
  p_order : list nat;
  p_weights : nat -> R;
  p_coef : nat -> nat -> nat -> R;
  p_availability : option (nat -> nat -> bool)
}.

(** [economy.products[economy._product_market_indices[t]]] and [agents[agents_market_indices[s]]]: row
    numbers.  market.py 80-84, economy_results.py 1219-1230. *)
Definition product_rows (e : economy) (t : Z) : list nat := market_indices (e_ids e) (e_order e) t.
Definition agent_rows (p : population) (t : Z) : list nat := market_indices (p_ids p) (p_order p) t.

(** [Groups(nesting_ids).unique]: nesting IDs of the market's products in increasing order, as positions in
    the economy's [unique_nesting_ids].  market.py 111-113, basics.py 490-512. *)
Definition local_nests (e : economy) (t : Z) : list nat :=
  filter (fun h => existsb (fun i => Nat.eqb (e_nest e i) h) (product_rows e t)) (seq 0 (e_H e)).

(** A column of X1 or X2 restricted to the market's rows. *)
Definition restrict_column (rows : list nat) (c : column) : column :=
  mk_column (uses c) (fun j => ev c (nth j rows 0%nat)) (fun j => dv1 c (nth j rows 0%nat))
    (fun j => dv2 c (nth j rows 0%nat)).

(** [Market.__init__].  market.py 66-163.  With one element, rho is the same for all groups; otherwise it is
    looked up by nesting ID (146-155). *)
Definition market_of (e : economy) (p : population) (t : Z) : full_market :=
  let rows := product_rows e t in
  let arows := agent_rows p t in
  let nests := local_nests e t in
  mk_full_market
    (mk_market (List.length rows) (List.length nests)
       (fun j => match index_of (e_nest e (nth j rows 0%nat)) nests with Some h => h | None => O end)
       (Nat.ltb 1 (e_rho_size e))
       (fun h => if Nat.eqb (e_rho_size e) 1 then e_rho e 0%nat else e_rho e (nth h nests 0%nat))
       (e_eps e))
    (List.length arows)
    (fun i => p_weights p (nth i arows 0%nat))
    (e_K1 e) (fun k => restrict_column rows (e_X1 e k)) (e_beta e)
    (e_K2 e) (fun k => restrict_column rows (e_X2 e k))
    (fun k j i => p_coef p (nth i arows 0%nat) k j)
    (fun j => e_prices e (nth j rows 0%nat))
    (fun j => e_delta e (nth j rows 0%nat))
    (fun j k => e_x2 e (nth j rows 0%nat) k).

(** [self.agents.availability], dropping products that are not in the market.  market.py 101-107, 414-418. *)
Definition choice_of (p : population) (t : Z) (i : nat) : choice :=
  mk_choice false
    (option_map (fun a j => indR (a (nth i (agent_rows p t) 0%nat) j)) (p_availability p)) None None.

(** Values of a column vector (NaN arguments are not modelled). *)
Definition column_value (a : @stacked R) (j : nat) : R := match st_cell a j 0 with Some x => x | None => 0 end.

(** [safely_compute_probabilities]: rows are products and columns agents.  economy_results_market.py 195-209.
    If X2 is not formulated, mu is zero and delta has one column (market.py 383-384, 393), which is what zero
    random coefficients and one agent give. *)
Definition market_probabilities (e : economy) (p : population) (prices delta : option (@stacked R)) (t : Z)
    : list (list R) :=
  let M := market_of e p t in
  let mu := match prices with
            | None => compute_mu M (X2_0 M)
            | Some x => update_mu M (column_value x)
            end in
  let d := match delta, prices with
           | Some d, _ => column_value d
           | None, Some x => update_delta M (column_value x)
           | None, None => delta0 M
           end in
  map (fun j => map (fun i => fst (probabilities_linear (fm M) (choice_of p t i) true d (mu i)) j)
                  (seq 0 (fI M))) (seq 0 (mJ (fm M))).

(** [probabilities @ self.agents.weights].  economy_results_market.py 347-354. *)
Definition row_total (w : nat -> R) (row : list R) : R :=
  fold_right Rplus 0 (map (fun iv => snd iv * w (fst iv)) (combine (seq 0 (List.length row)) row)).
Definition market_shares_column (e : economy) (p : population) (prices delta : option (@stacked R)) (t : Z)
    : list (list R) :=
  map (fun row => [row_total (fw (market_of e p t)) row]) (market_probabilities e p prices delta t).

(** [_coerce_optional_prices] and [_coerce_optional_delta].  None: ValueError.  economy_results.py 82-110. *)
Definition coerce_optional (e : economy) (market_ids : list Z) (a : option (@stacked R))
    : option (option (@stacked R)) :=
  match a with
  | None => Some None
  | Some a => option_map Some (coerce_column (get_indices (e_ids e) (e_order e)) market_ids a)
  end.

(** Rows of arguments that belong to a market.  economy_results.py 1231-1234. *)
Definition optional_argument (e : economy) (market_ids : list Z) (a : option (@stacked R)) (t : Z)
    : option (@stacked R) :=
  option_map (fun a => market_argument (product_rows e) market_ids a t) a.

(** [compute_probabilities] and [compute_shares], for selected markets that are computed in some order.
    economy_results.py 418-428, 862-873. *)
Definition compute_with (method : economy -> population -> option (@stacked R) -> option (@stacked R) -> Z ->
      list (list R)) (e : economy) (p : population) (market_ids order : list Z)
    (prices delta : option (@stacked R)) : option (@stacked R) :=
  match coerce_optional e market_ids prices, coerce_optional e market_ids delta with
  | Some prices, Some delta =>
      Some (combined (List.length (e_ids e)) (product_rows e) market_ids order
              (fun t => method e p (optional_argument e market_ids prices t)
                          (optional_argument e market_ids delta t) t))
  | _, _ => None
  end.
Definition compute_probabilities := compute_with market_probabilities.
Definition compute_shares := compute_with market_shares_column.
