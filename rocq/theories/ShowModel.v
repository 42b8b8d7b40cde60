(** Tables of parameters and labels of theta.  pyblp/parameters.py 205-213, 398-622, 647-657.  Tables are those of TableModel, numbers those of
    FormatModel and parameters those of ParamsModel.  Definitions only. *)
From Coq Require Import Reals Ascii String List Arith Bool.
From Verif Require Import FltModel ParamsModel TableModel FormatModel.
From Verif Require DerivModel.
Import ListNotations.

(** Labels.  parameters.py 206-215.  (Random coefficient types are one of linear, log and logit.) *)
Record labels := {
  sigma_labels : list text;
  pi_labels : list text;
  rho_labels : list text;
  phi_labels : list text;
  beta_labels : list text;
  gamma_labels : list text;
  types : list DerivModel.rc_type
}.
(** [d != 'linear'] and [row_rc_type.title()] *)
Definition nonlinear_type (t : DerivModel.rc_type) : bool := match t with DerivModel.RCLinear => false | _ => true end.
Definition type_title (t : DerivModel.rc_type) : text :=
  match t with DerivModel.RCLinear => lit "Linear" | DerivModel.RCLog => lit "Log" | DerivModel.RCLogit => lit "Logit" end.
(** Not any element of sigma below its diagonal differs from zero.  parameters.py 235. *)
Definition diagonal_sigma (ps : parameters) : bool :=
  negb (existsb (fun ij => ((snd ij <? fst ij) && negb (feqb (entry (mat ps Sigma) (fst ij) (snd ij)) (Num 0)))%bool)
    (ndindex (nrows (mat ps Sigma)) (ncols (mat ps Sigma)))).

(** A table's title, header, rows and indices of columns that are followed by vertical lines. *)
Record table := { t_title : text; t_header : list text; t_rows : list (list text); t_lines : list nat }.
(** [format_table(header, *data, title=..., line_indices=...)], where elements of the header are strings. *)
Definition table_text (t : table) : option text :=
  format_table (map (fun s => [s]) (t_header t)) (t_rows t) (Some (t_title t)) true true (t_lines t).

Section Tables.
Context (digits : nat) (L : labels) (ps : parameters).

(** [format_vector].  parameters.py 530-543. *)
Definition flat (m : matrix) : list flt := map (fun ij => entry m (fst ij) (snd ij)) (ndindex (nrows m) (ncols m)).
Definition vector_table (title : text) (parameter_type : kind) (header : list text) (vector : matrix) (se : option matrix) : table :=
  {| t_title := title; t_header := header; t_lines := [];
     t_rows := map (format_number digits) (flat vector) ::
       match se with
       | Some s => [map (fun ix => if existsb (Nat.eqb (fst ix)) (fixed_indices ps parameter_type) then [] else format_se digits (snd ix))
                      (combine (seq 0 (length (flat s))) (flat s))]
       | None => []
       end |}.
(** [format_rho], [format_beta] and [format_gamma], which passes BetaParameter.  parameters.py 500-503, 522-528. *)
Definition size (m : matrix) : nat := nrows m * ncols m.
Definition rho_table (title : text) (rho : matrix) (se : option matrix) : table :=
  vector_table (lit "Rho " ++ title) Rho (if 1 <? size rho then rho_labels L else [lit "All Groups"]) rho se.
Definition beta_table (title : text) := vector_table (lit "Beta " ++ title) Beta (beta_labels L).
Definition gamma_table (title : text) := vector_table (lit "Gamma " ++ title) Beta (gamma_labels L).
(** [format_phi].  parameters.py 505-520. *)
Definition row_of (m : matrix) (i : nat) : list flt := map (entry m i) (seq 0 (ncols m)).
Definition phi_table (title : text) (phi : matrix) (se : option matrix) : table :=
  if size phi =? 1 then vector_table (lit "Phi " ++ title) Phi (phi_labels L) phi se
  else
    {| t_title := lit "Phi " ++ title; t_header := [] :: phi_labels L; t_lines := [];
       t_rows := flat_map (fun il =>
         (snd il :: map (format_number digits) (row_of phi (fst il))) ::
         match se with
         | Some s => [[] :: map (fun jx => if phi_se_printed ps (fst il) (fst jx) then format_se digits (snd jx) else [])
                              (combine (seq 0 (ncols s)) (row_of s (fst il)))]
         | None => []
         end) (combine (seq 0 (length (phi_labels L))) (phi_labels L)) |}.

(** [format_nonlinear_coefficients].  parameters.py 545-622. *)
Definition types_column : bool := existsb nonlinear_type (types L).
Definition shown_squared (squared : option matrix) : option matrix := if diagonal_sigma ps then None else squared.
Definition nonlinear_header (squared : option matrix) : list text :=
  (if types_column then [lit "Types:"] else []) ++ lit "Sigma:" :: sigma_labels L ++
  (if is_some squared then lit "Sigma Squared:" :: sigma_labels L else []) ++
  match pi_labels L with [] => [] | _ => lit "Pi:" :: pi_labels L end.
Definition nonlinear_lines (squared : option matrix) : list nat :=
  let before := (if types_column then 1 else 0) + 1 + length (sigma_labels L) in
  (if types_column then [0] else []) ++
  (if is_some squared then [before - 1] else []) ++
  match pi_labels L with [] => [] | _ => [(if is_some squared then before + 1 + length (sigma_labels L) else before) - 1] end.
Definition nonlinear_values (sigma pi : matrix) (squared : option matrix) (i : nat) (t : DerivModel.rc_type) (label : text) : list text :=
  (if types_column then [type_title t] else []) ++ [label] ++
  map (fun j => format_number digits (entry sigma i j)) (seq 0 (i + 1)) ++ repeat [] (ncols sigma - i - 1) ++
  match squared with Some q => label :: map (format_number digits) (row_of q i) | None => [] end ++
  (if 0 <? ncols pi then label :: map (format_number digits) (row_of pi i) else []).
Definition nonlinear_errors (sigma sigma_se : matrix) (squared_se pi_se : option matrix) (i : nat) : list text :=
  repeat [] (if types_column then 2 else 1) ++
  map (fun j => if nonlinear_se_printed ps Sigma i j then format_se digits (entry sigma_se i j) else []) (seq 0 (i + 1)) ++
  repeat [] (ncols sigma - i - 1) ++
  match squared_se with Some q => [] :: map (format_se digits) (row_of q i) | None => [] end ++
  match pi_se with
  | Some s => if 0 <? ncols s then [] :: map (fun j => if nonlinear_se_printed ps Pi i j then format_se digits (entry s i j) else []) (seq 0 (ncols s)) else []
  | None => []
  end.
Fixpoint nonlinear_rows (sigma pi : matrix) (squared sigma_se squared_se pi_se : option matrix) (i : nat) (rows : list (DerivModel.rc_type * text))
    : list (list text) :=
  match rows with
  | [] => []
  | (t, label) :: rows' =>
      nonlinear_values sigma pi squared i t label ::
      match sigma_se with
      | None => []
      | Some s => let errors := nonlinear_errors sigma s squared_se pi_se i in
          errors :: if i <? ncols sigma - 1 then [repeat [] (length errors)] else []
      end ++ nonlinear_rows sigma pi squared sigma_se squared_se pi_se (S i) rows'
  end.
Definition nonlinear_table (title : text) (sigma pi : matrix) (squared sigma_se pi_se squared_se : option matrix) : table :=
  {| t_title := lit "Nonlinear Coefficient " ++ title;
     t_header := nonlinear_header (shown_squared squared);
     t_rows := nonlinear_rows sigma pi (shown_squared squared) sigma_se (shown_squared squared_se) pi_se 0 (combine (types L) (sigma_labels L));
     t_lines := nonlinear_lines (shown_squared squared) |}.

(** [format_theta_parameters]: tables of kinds that have fixed or unfixed parameters; nonlinear coefficients are sigma and pi.  parameters.py 436-460. *)
Definition has_kind (k : kind) : bool := existsb (is_kind k) (fixed ps ++ unfixed ps).
Definition theta_tables (title : text) (v : kind -> matrix) (squared : option matrix) : list table :=
  (if (has_kind Sigma || has_kind Pi)%bool then [nonlinear_table title (v Sigma) (v Pi) squared None None None] else []) ++
  (if has_kind Rho then [rho_table title (v Rho) None] else []) ++
  (if has_kind Phi then [phi_table title (v Phi) None] else []) ++
  (if has_kind Beta then [beta_table title (v Beta) None] else []) ++
  (if has_kind Gamma then [gamma_table title (v Gamma) None] else []).
(** [format_estimates]: tables of matrices that are not empty.  parameters.py 462-498. *)
Definition estimate_tables (title : text) (v se : kind -> matrix) (squared squared_se : matrix) : list table :=
  (if 0 <? size (v Sigma) then [nonlinear_table title (v Sigma) (v Pi) (Some squared) (Some (se Sigma)) (Some (se Pi)) (Some squared_se)] else []) ++
  (if 0 <? size (v Rho) then [rho_table title (v Rho) (Some (se Rho))] else []) ++
  (if 0 <? size (v Phi) then [phi_table title (v Phi) (Some (se Phi))] else []) ++
  (if 0 <? size (v Beta) then [beta_table title (v Beta) (Some (se Beta))] else []) ++
  (if 0 <? size (v Gamma) then [gamma_table title (v Gamma) (Some (se Gamma))] else []).

(** [compress_labels].  parameters.py 647-657.  (An index out of bounds, which is an IndexError, gives an empty string.) *)
Definition label_of (p : parameter) : text :=
  let '(k, (i, j)) := p in
  match k with
  | Sigma => nth i (sigma_labels L) [] ++ lit " x " ++ nth j (sigma_labels L) []
  | Pi => nth i (sigma_labels L) [] ++ lit " x " ++ nth j (pi_labels L) []
  | Rho => nth i (rho_labels L) []
  | Phi => nth i (phi_labels L) [] ++ lit " on " ++ nth j (phi_labels L) []
  | Beta => nth i (beta_labels L) []
  | Gamma => nth i (gamma_labels L) []
  end.
Definition theta_labels : list text := flat_map (fun k => map label_of (filter (is_kind k) (unfixed ps))) kinds.
End Tables.
