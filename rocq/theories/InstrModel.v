(** Model of how matrices of characteristics and instruments are put together: /repo/pyblp/primitives.py, results/optimal_instrument_results.py,
    results/simulation_results.py and economies/problem.py.  Definitions only.

    Column formulations are expressions (FormModel).  All variables that formulas mention exist.  Matrices are lists of columns, and fixed
    effects are not absorbed here (AbsorbModel is about that). *)
From Coq Require Import Reals List Bool Arith ZArith Ascii String.
From Verif Require Import FormModel ParamsModel BasicsModel ConstrModel.
Import ListNotations.
Local Open Scope string_scope.
Local Open Scope list_scope.

(** Values of variables in each row, and a column of a matrix. *)
Definition dataset := nat -> string -> R.
Definition column := nat -> option R.
(** [ColumnFormulation.evaluate] in each row. *)
Definition column_of (d : dataset) (e : expr) : column := fun n => evaluate (fun s => Some (d n s)) e.
(** Data with some variables replaced. *)
Definition replaced (d : dataset) (s : string) (values : nat -> R) : dataset := fun n t => if String.eqb t s then values n else d n t.

(** [name in formulation.names] and [name in data] for the data underlying a matrix.  formulation.py 225-228, 310. *)
Definition mentions (s : string) (e : expr) : bool := existsb (String.eqb s) (free e).
Definition mentioned (s : string) (columns : list expr) : bool := existsb (mentions s) columns.

(* ---------- Products ---------- *)

Inductive error := NoX1 | AbsorbedX2 | SharesInX1 | SharesInX2 | NoPrices | PricesInX3 | NotFinite | ReservedNames.
Record formula := Formula { columns : list expr; absorbs : bool }.
Definition columns_of (f : option formula) : list expr := match f with Some f => columns f | None => [] end.
Record fields := Fields { ZD : option (list column); ZS : option (list column); ZC : option (list column) }.

(** Names of fields, which formulas cannot use.  primitives.py 243-270. *)
Definition reserved : list string :=
  ["market_ids"; "firm_ids"; "demand_ids"; "supply_ids"; "nesting_ids"; "product_ids"; "clustering_ids"; "lag_indices"; "ownership";
   "shares"; "ZD"; "ZS"; "ZC"; "X1"; "X2"; "X3"].

(** [ZD = X[:, [index]] if ZD is None else np.c_[ZD, X[:, [index]]]] for columns without the endogenous variable.  primitives.py 141-144, 152-155. *)
Definition supplement (endogenous : string) (d : dataset) (X : list expr) (Z : option (list column)) : option (list column) :=
  fold_left (fun Z e => if mentions endogenous e then Z
                        else Some (match Z with None => [column_of d e] | Some l => l ++ [column_of d e] end)) X Z.

Section Products.
  Variables (X1 X2 X3 : option formula) (d : dataset) (is_finite : column -> bool).
  (** Instrument fields of product_data, if there are any. *)
  Variables (demand_instruments supply_instruments covariance_instruments : option (list column)) (instruments add_exogenous : bool).

  Definition finite_columns (l : list column) : bool := forallb is_finite l.
  Definition finite_field (o : option (list column)) : bool := match o with Some l => finite_columns l | None => true end.
  Definition finite_X (f : option formula) : bool := finite_columns (map (column_of d) (columns_of f)).

  (** [Products.__new__] as far as formulations and instruments are concerned; X2 without a formula has no columns.  primitives.py 96-164,
      272-276.  IDs, lags, ownership and shares are in PrimModel; they are checked between instruments and reserved names. *)
  Definition products : error + fields :=
    match X1 with
    | None => inl NoX1
    | Some f1 =>
        if match X2 with Some f2 => absorbs f2 | None => false end then inl AbsorbedX2
        else if mentioned "shares" (columns f1) then inl SharesInX1
        else if negb (finite_X X1) then inl NotFinite
        else if mentioned "shares" (columns_of X2) then inl SharesInX2
        else if negb (finite_X X2) then inl NotFinite
        else if negb (mentioned "prices" (columns f1)) && negb (mentioned "prices" (columns_of X2)) then inl NoPrices
        else if mentioned "prices" (columns_of X3) then inl PricesInX3
        else if negb (finite_X X3) then inl NotFinite
        else
          let ZD := if instruments then
                      if negb (finite_field demand_instruments) then inl NotFinite
                      else inr (if add_exogenous then supplement "prices" d (columns f1) demand_instruments else demand_instruments)
                    else inr None in
          let ZS := match X3 with
                    | Some f3 =>
                        if instruments then
                          if negb (finite_field supply_instruments) then inl NotFinite
                          else inr (if add_exogenous then supplement "shares" d (columns f3) supply_instruments else supply_instruments)
                        else inr None
                    | None => inr None
                    end in
          let ZC := match X3 with
                    | Some _ => if instruments then if negb (finite_field covariance_instruments) then inl NotFinite else inr covariance_instruments
                                else inr None
                    | None => inr None
                    end in
          match ZD, ZS, ZC with
          | inl e, _, _ => inl e
          | _, inl e, _ => inl e
          | _, _, inl e => inl e
          | inr zd, inr zs, inr zc =>
              if existsb (fun s => negb (String.eqb s "shares") && mem s reserved)
                   (flat_map free (columns f1 ++ columns_of X2 ++ columns_of X3)) then inl ReservedNames
              else inr (Fields zd zs zc)
          end
    end.
End Products.

(* ---------- Problems with optimal instruments ---------- *)

Section Optimal.
  (** Formulations, data, parameters, and optimal instruments for each parameter in theta.  There are no supply-side instruments without a
      supply side. *)
  Variables (X1 X3 : list expr) (d : dataset) (ps : parameters) (demand_instruments supply_instruments : list column).
  Variables (expected_prices expected_shares : nat -> R).
  (** Columns of supply and demand shifters, if there are any. *)
  Variables (supply_shifters demand_shifters : list column).

  (** [parameter.get_product_formulation(...)] of linear coefficients.  parameters.py 113-139. *)
  Definition coefficient_on (p : parameter) : option expr :=
    match p with
    | (Beta, (k, _)) => nth_error X1 k
    | (Gamma, (k, _)) => nth_error X3 k
    | _ => None
    end.
  (** Parameters in theta on exogenous linear characteristics.  optimal_instrument_results.py 353-357. *)
  Definition dropped (p : parameter) : bool :=
    match coefficient_on p with Some e => negb (mentions "prices" e) && negb (mentions "shares" e) | None => false end.
  (** [instruments[:, ~dropped_index]] *)
  Definition keep (instruments : list column) : list column :=
    map snd (filter (fun pc => negb (dropped (fst pc))) (combine (unfixed ps) instruments)).
  (** Characteristics with parameters that are concentrated out and that involve an endogenous variable.  parameters.py 239-256. *)
  Definition eliminated_endogenous (k : kind) (endogenous : string) (X : list expr) : list expr :=
    map snd (filter (fun ie => eliminated_index ps k (fst ie) 0 && mentions endogenous (snd ie)) (combine (seq 0 (List.length X)) X)).

  (** [to_problem] with default indices: what is passed on.  optimal_instrument_results.py 359-412. *)
  Definition optimal_demand : list column :=
    (keep demand_instruments ++ map (column_of (replaced d "prices" expected_prices)) (eliminated_endogenous Beta "prices" X1)
     ++ supply_shifters).
  Definition optimal_supply : list column :=
    (keep supply_instruments ++ map (column_of (replaced d "shares" expected_shares)) (eliminated_endogenous Gamma "shares" X3)
     ++ demand_shifters).

  (** [OptimalInstrumentProblem]: all of X3 is added.  problem.py 2129-2144. *)
  Definition optimal_ZD : list column := (optimal_demand ++ map (column_of d) (filter (fun e => negb (mentions "prices" e)) X1)).
  Definition optimal_ZS : list column := (optimal_supply ++ map (column_of d) X3).
End Optimal.

(* ---------- Default instruments of simulated problems ---------- *)

Section Default.
  Variables (market_ids firm_ids : list Z) (market_sort paired_sort : list nat) (X1 X3 : list expr) (K3 : nat).
  (** Names in formulas without the endogenous variable; they are sorted, which is left out.  simulation_results.py 394-398. *)
  Definition exogenous_names (endogenous : string) (X : list expr) : list string :=
    nodup string_dec (filter (fun s => negb (String.eqb s endogenous)) (flat_map free X)).
  Definition J_variation : bool := existsb (fun mi => Nat.ltb (List.length (snd mi)) (max_J market_ids)) (market_indices market_ids).
  (** [demand_instruments != demand_instruments[0]] in some row *)
  Definition varies (x : nat -> R) : bool :=
    existsb (fun n => if Req_EM_T (x n) (x 0%nat) then false else true) (seq 0 (List.length market_ids)).
  (** BLP instruments for an intercept and for variables, without constant columns.  construction.py 228-239, simulation_results.py 403-413. *)
  Definition sums_of_characteristics (d : dataset) (names : list string) : list (nat -> R) :=
    let characteristics := ((if J_variation then [fun _ => 1%R] else []) ++ map (fun s n => d n s) names) in
    filter varies (map (blp_other market_ids firm_ids paired_sort) characteristics
                   ++ map (blp_rival market_ids firm_ids market_sort paired_sort) characteristics).
  Definition shifters (d : dataset) (own other : list string) : list (nat -> R) :=
    map (fun s n => d n s) (filter (fun s => negb (mem s other)) own).
  (** [_compute_default_instruments], given data.  simulation_results.py 390-427. *)
  Definition default_instruments (d : dataset) : list (nat -> R) * list (nat -> R) :=
    let X1_names := exogenous_names "prices" X1 in
    let X3_names := exogenous_names "shares" X3 in
    ((sums_of_characteristics d X1_names ++ shifters d X3_names X1_names),
     if Nat.ltb 0 K3 then (sums_of_characteristics d X3_names ++ shifters d X1_names X3_names) else []).

  (** [to_problem] with default arguments: data of the problem and its excluded instruments, which are computed with the data of the simulation.
      simulation_results.py 165-168, 361-366, 410-425. *)
  Definition simulated_problem (simulation_data : dataset) (overrides : list (string * (nat -> R)))
      : dataset * (list (nat -> R) * list (nat -> R)) :=
    (fold_left (fun d sv => replaced d (fst sv) (snd sv)) overrides simulation_data, default_instruments simulation_data).
End Default.
