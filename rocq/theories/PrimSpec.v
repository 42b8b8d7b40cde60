(** What users of structured data rely on. *)
From Coq Require Import Reals ZArith List Bool Arith.
From Verif Require Import FltModel BasicsSpec PrimModel.
Import ListNotations.

(** Every lag index is the number of a row. *)
Definition row_numbers (lags : list flt) : Prop :=
  forall x, In x lags -> exists j, j < List.length lags /\ x = Num (INR j).

(** Rows [i] and [j] are not initial periods and have the same lag. *)
Definition shared_lag (lags : list flt) (i j : nat) : Prop :=
  i < List.length lags /\ j < List.length lags /\ i <> j /\
  nth i lags NaN <> Num (INR i) /\ nth j lags NaN <> Num (INR j) /\ nth i lags NaN = nth j lags NaN.

Definition some_initial (lags : list flt) : Prop := exists i, i < List.length lags /\ nth i lags NaN = Num (INR i).

Definition valid_lags (lags : list flt) : Prop :=
  row_numbers lags /\ some_initial lags /\ forall i j, ~ shared_lag lags i j.

(** Shares that leave a positive share to the outside good in every market. *)
Definition proper_shares (market_ids : list Z) (shares : list flt) : Prop :=
  (forall x, In x shares -> exists s, x = Num s /\ (0 < s < 1)%R) /\
  forall t, In t market_ids ->
    (0 < 1 - sum_rows (fun j => finite_part (nth j shares NaN)) (rows_of market_ids t))%R.

(** Row number [r] of market [t] in the result comes from row number [r] of market [t] in the data. *)
Definition column_aligned {X} (loaded out : list Z) (from : list X) (to : list X) : Prop :=
  List.length to = List.length out /\
  forall t r x, r < List.length (rows_of out t) ->
    r < List.length (rows_of loaded t) /\
    nth (nth r (rows_of out t) 0) to x = nth (nth r (rows_of loaded t) 0) from x.

Definition field_aligned {X} (loaded out : list Z) (from to : option (list X)) : Prop :=
  match from, to with
  | None, None => True
  | Some f, Some t => column_aligned loaded out f t
  | _, _ => False
  end.

(** All loaded fields of each row of the result come from one and the same row of the data, which
    belongs to the same market. *)
Definition aligned {I D A N} (data : agent_data I D A N) (out : agents I D A N) : Prop :=
  field_aligned (loaded_markets data) (agent_markets out) (loaded_ids data) (agent_ids out) /\
  field_aligned (loaded_markets data) (agent_markets out) (loaded_demographics data) (agent_demographics out) /\
  field_aligned (loaded_markets data) (agent_markets out) (loaded_availability data) (agent_availability out).

(** Fields of the data have a value for each of its rows. *)
Definition rectangular {I D A N} (data : agent_data I D A N) : Prop :=
  (forall l, loaded_ids data = Some l -> List.length l = List.length (loaded_markets data)) /\
  (forall l, loaded_demographics data = Some l -> List.length l = List.length (loaded_markets data)) /\
  (forall l, loaded_availability data = Some l -> List.length l = List.length (loaded_markets data)) /\
  (forall l, loaded_nodes data = Some l -> List.length l = List.length (loaded_markets data)).

Definition grouped_by_market (market_ids : list Z) : Prop :=
  forall i j, i < j < List.length market_ids -> (nth i market_ids 0 <= nth j market_ids 0)%Z.

(** Each market of the data has as many rows as there are nodes. *)
Definition same_sizes {N} (market_ids : list Z) (block : Z -> list N) : Prop :=
  forall t, In t market_ids -> List.length (rows_of market_ids t) = List.length (block t).

(** The result's nodes: those built for a market are its rows, in order. *)
Definition nodes_in_order {I D A N} (out : agents I D A N) (block : Z -> list N) : Prop :=
  List.length (agent_nodes out) = List.length (agent_markets out) /\
  forall t r x, r < List.length (rows_of (agent_markets out) t) ->
    nth (nth r (rows_of (agent_markets out) t) 0) (agent_nodes out) x = nth r (block t) x.
