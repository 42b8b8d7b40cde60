(** Tables of parameters: what they show. *)
From Coq Require Import Reals Ascii String List Arith Bool.
From Verif Require Import FltModel ParamsModel TableModel TableSpec FormatModel ShowModel.
From Verif Require DerivModel.
Import ListNotations.

(** Columns p, p + 1, and so on of a table are headed by a name and then by labels.  In each row, there is the row's label below the name, and
    there are cells below labels. *)
Definition shows (header : list text) (rows : nat -> list text) (p : nat) (name : text) (columns row_labels : list text) (cell : nat -> nat -> text) : Prop :=
  nth_error header p = Some name /\
  (forall j l, nth_error columns j = Some l -> nth_error header (p + 1 + j) = Some l) /\
  forall i l, nth_error row_labels i = Some l ->
    nth_error (rows i) p = Some l /\ forall j, j < length columns -> nth_error (rows i) (p + 1 + j) = Some (cell i j).
(** Labels agree with the sizes of matrices. *)
Definition has_shape (m : matrix) (r c : nat) : Prop := nrows m = r /\ ncols m = c.
Definition optional_shape (m : option matrix) (r c : nat) : Prop := match m with Some q => has_shape q r c | None => True end.
(** Some random coefficient is not linear, some element below sigma's diagonal is not zero. *)
Definition some_nonlinear (L : labels) : Prop := exists t, In t (types L) /\ t <> DerivModel.RCLinear.
Definition some_covariance (ps : parameters) : Prop :=
  exists i j, j < i < nrows (mat ps Sigma) /\ j < ncols (mat ps Sigma) /\ entry (mat ps Sigma) i j <> Num 0.
(** Cells of a lower triangle; cells of parameters that are in a list, or that are not. *)
Definition lower_only (f : nat -> nat -> text) : nat -> nat -> text := fun i j => if j <=? i then f i j else [].
Definition only_in (l : list parameter) (k : kind) (f : nat -> nat -> text) : nat -> nat -> text :=
  fun i j => if in_dec parameter_eq_dec (k, (i, j)) l then f i j else [].
Definition except_in (l : list parameter) (k : kind) (f : nat -> nat -> text) : nat -> nat -> text :=
  fun i j => if in_dec parameter_eq_dec (k, (i, j)) l then [] else f i j.
(** Where blocks of the table of nonlinear coefficients start, given whether there is a column of types, the number of random coefficients and
    whether there is a block of squared coefficients. *)
Definition sigma_start (types : bool) : nat := if types then 1 else 0.
Definition squared_start (types : bool) (K2 : nat) : nat := sigma_start types + 1 + K2.
Definition pi_start (types : bool) (K2 : nat) (squared : bool) : nat := squared_start types K2 + if squared then 1 + K2 else 0.
(** A table that is displayed can be read: between its title and borders are a line of labels, a line of dashes, and lines of cells; above and below
    runs of dashes are labels and cells, up to surrounding spaces. *)
Definition readable (T : table) : Prop :=
  exists s labels_line lines dashes, table_text T = Some s /\
    lines_of s = [t_title T ++ lit ":"; repeat "="%char (length dashes); labels_line; dashes] ++ lines ++ [repeat "="%char (length dashes)] /\
    read_row dashes labels_line = stripped (t_header T) /\ map (read_row dashes) lines = map stripped (t_rows T).
(** Labels that are not empty and are on one line. *)
Definition proper (l : list text) : Prop := forall s, In s l -> s <> [] /\ on_one_line s.
(** Parameters in theta have labels. *)
Definition labelled (L : labels) (ps : parameters) : Prop :=
  forall k i j, In (k, (i, j)) (unfixed ps) ->
    match k with
    | Sigma => i < length (sigma_labels L) /\ j < length (sigma_labels L)
    | Pi => i < length (sigma_labels L) /\ j < length (pi_labels L)
    | Rho => i < length (rho_labels L) /\ j = 0
    | Phi => i < length (phi_labels L) /\ j < length (phi_labels L)
    | Beta => i < length (beta_labels L) /\ j = 0
    | Gamma => i < length (gamma_labels L) /\ j = 0
    end.
(** Names of types of random coefficients. *)
Definition names_type (t : DerivModel.rc_type) (s : text) : Prop :=
  (t = DerivModel.RCLinear /\ s = lit "Linear") \/ (t = DerivModel.RCLog /\ s = lit "Log") \/ (t = DerivModel.RCLogit /\ s = lit "Logit").
