(** Proofs about tables of parameters. *)
From Coq Require Import Reals Ascii String List Arith Bool Lia.
From Verif Require Import FltModel ParamsModel ParamsProofs ParamsProps TableModel TableSpec TableProofs TableProps FormatModel FormatSpec FormatProofs ShowModel ShowSpec.
From Verif Require DerivModel.
Import ListNotations.

Lemma nth_error_skip {A} (l m : list A) n k : length l = n -> nth_error (l ++ m) (n + k) = nth_error m k.
Proof. intros <-. rewrite nth_error_app2 by lia. f_equal. lia. Qed.
Lemma nth_error_within {A} (l m : list A) j : j < length l -> nth_error (l ++ m) j = nth_error l j.
Proof. intros H. apply nth_error_app1. exact H. Qed.

Lemma shows_intro header rows p name columns row_labels cell A B :
  header = A ++ name :: columns ++ B -> length A = p ->
  (forall i l, nth_error row_labels i = Some l -> exists A' cells B', rows i = A' ++ l :: cells ++ B' /\ length A' = p /\ length cells = length columns /\
    forall j, j < length columns -> nth_error cells j = Some (cell i j)) ->
  shows header rows p name columns row_labels cell.
Proof.
  intros -> HA H. split; [|split].
  - replace p with (p + 0) by lia. rewrite (nth_error_skip A _ p 0 HA). reflexivity.
  - intros j l Hj. rewrite <- Nat.add_assoc. rewrite (nth_error_skip A _ p (1 + j) HA). cbn [plus nth_error].
    rewrite nth_error_within; [exact Hj|]. apply nth_error_Some. rewrite Hj. discriminate.
  - intros i l Hi. destruct (H i l Hi) as (A' & cells & B' & E & LA & LC & C). rewrite E. split.
    + replace p with (p + 0) by lia. rewrite (nth_error_skip A' _ p 0 LA). reflexivity.
    + intros j Hj. rewrite <- Nat.add_assoc. rewrite (nth_error_skip A' _ p (1 + j) LA). cbn [plus nth_error].
      rewrite nth_error_within by lia. exact (C j Hj).
Qed.
Lemma nth_error_map_seq {A} (f : nat -> A) n j : j < n -> nth_error (map f (seq 0 n)) j = Some (f j).
Proof.
  intros H. rewrite nth_error_map. rewrite (nth_error_nth' (seq 0 n) 0) by (rewrite seq_length; lia). rewrite seq_nth by lia. reflexivity.
Qed.

Section Show.
Context (digits : nat) (L : labels) (ps : parameters).
Let K2 := length (sigma_labels L).
Let D := length (pi_labels L).

Lemma types_column_iff : types_column L = true <-> some_nonlinear L.
Proof.
  clear. unfold types_column, some_nonlinear. rewrite existsb_exists. split; intros (t & H & N); exists t; (split; [exact H|]).
  - intros ->. discriminate N.
  - destruct t; [congruence|reflexivity|reflexivity].
Qed.
Lemma feqb_zero x : feqb x (Num 0) = true <-> x = Num 0.
Proof.
  clear. destruct x as [x| | |]; cbn; try (split; discriminate). unfold reqb. destruct (Req_EM_T x 0) as [E|E]; split; intros H.
  - rewrite E. reflexivity.
  - reflexivity.
  - discriminate H.
  - assert (x = 0%R) by congruence. contradiction.
Qed.
Lemma diagonal_iff : diagonal_sigma ps = false <-> some_covariance ps.
Proof.
  clear. unfold diagonal_sigma, some_covariance. rewrite negb_false_iff, existsb_exists. split.
  - intros ((i, j) & H & N). unfold ndindex in H. apply in_prod_iff in H. rewrite !in_seq in H. cbn [fst snd] in N. apply andb_true_iff in N.
    destruct N as [N1 N2]. apply Nat.ltb_lt in N1. apply negb_true_iff in N2. exists i, j. split; [lia|]. split; [lia|]. intros E.
    apply feqb_zero in E. congruence.
  - intros (i & j & H & Hj & N). exists (i, j). unfold ndindex. split; [apply in_prod_iff; rewrite !in_seq; lia|]. cbn [fst snd].
    apply andb_true_iff. split; [apply Nat.ltb_lt; lia|]. apply negb_true_iff. destruct (feqb _ _) eqn:E; [|reflexivity].
    apply feqb_zero in E. contradiction.
Qed.
Lemma printed_unfixed k (f : nat -> nat -> text) i j : (if nonlinear_se_printed ps k i j then f i j else []) = only_in (unfixed ps) k f i j.
Proof.
  clear. unfold only_in. destruct (C70_matrices ps i j) as [_ H]. specialize (H k).
  destruct (in_dec parameter_eq_dec (k, (i, j)) (unfixed ps)) as [I|N].
  - rewrite (proj2 H I). reflexivity.
  - destruct (nonlinear_se_printed ps k i j); [|reflexivity]. exfalso. apply N, H. reflexivity.
Qed.

Context (sigma pi : matrix) (squared sigma_se pi_se squared_se : option matrix).
Context (Htypes : length (types L) = K2) (Hsigma : has_shape sigma K2 K2) (Hpi : has_shape pi K2 D).
Context (Hsq : optional_shape squared K2 K2).

Definition shown : bool := is_some (shown_squared ps squared).
Definition prefix_of (t : DerivModel.rc_type) : list text := if types_column L then [type_title t] else [].
Definition sigma_cells (i : nat) : list text := map (fun j => format_number digits (entry sigma i j)) (seq 0 (i + 1)) ++ repeat [] (ncols sigma - i - 1).
Definition squared_part (i : nat) (l : text) : list text :=
  match shown_squared ps squared with Some q => l :: map (format_number digits) (row_of q i) | None => [] end.
Definition pi_part (i : nat) (l : text) : list text := if 0 <? ncols pi then l :: map (format_number digits) (row_of pi i) else [].

Lemma values_parts i t l : nonlinear_values digits L sigma pi (shown_squared ps squared) i t l =
  prefix_of t ++ l :: sigma_cells i ++ squared_part i l ++ pi_part i l.
Proof. clear. unfold nonlinear_values, prefix_of, sigma_cells, squared_part, pi_part. cbn [app]. rewrite <- !app_assoc. reflexivity. Qed.
Lemma prefix_length t : length (prefix_of t) = sigma_start (types_column L).
Proof. clear. unfold prefix_of, sigma_start. destruct (types_column L); reflexivity. Qed.
Lemma triangle_length (f : nat -> text) i : i < K2 -> length (map f (seq 0 (i + 1)) ++ repeat [] (ncols sigma - i - 1)) = K2.
Proof. intros H. destruct Hsigma as [_ E]. rewrite app_length, map_length, seq_length, repeat_length. lia. Qed.
Lemma triangle_cells (f : nat -> nat -> text) i j : i < K2 -> j < K2 -> nth_error (map (f i) (seq 0 (i + 1)) ++ repeat [] (ncols sigma - i - 1)) j = Some (lower_only f i j).
Proof.
  intros Hi Hj. destruct Hsigma as [_ E]. unfold lower_only. destruct (Nat.leb_spec j i) as [H|H].
  - rewrite nth_error_within by (rewrite map_length, seq_length; lia). apply nth_error_map_seq. lia.
  - rewrite nth_error_app2 by (rewrite map_length, seq_length; lia). rewrite map_length, seq_length.
    rewrite (nth_error_nth' _ []) by (rewrite repeat_length; lia). f_equal. apply nth_repeat.
Qed.
Lemma squared_part_length i l : length (squared_part i l) = if shown then 1 + K2 else 0.
Proof.
  unfold squared_part, shown, shown_squared. destruct (diagonal_sigma ps); [reflexivity|]. destruct squared as [q|]; [|reflexivity].
  cbn [is_some length optional_shape] in *. destruct Hsq as [_ E]. unfold row_of. rewrite !map_length, seq_length, E. reflexivity.
Qed.
Lemma row_cells (m : matrix) i j (f : flt -> text) : j < ncols m -> nth_error (map f (row_of m i)) j = Some (f (entry m i j)).
Proof. clear. intros H. unfold row_of. rewrite map_map. exact (nth_error_map_seq (fun x => f (entry m i x)) _ _ H). Qed.

(** Header. *)
Definition squared_header : list text := if shown then lit "Sigma Squared:" :: sigma_labels L else [].
Definition pi_header : list text := match pi_labels L with [] => [] | _ => lit "Pi:" :: pi_labels L end.
Lemma header_parts : nonlinear_header L (shown_squared ps squared) =
  (if types_column L then [lit "Types:"] else []) ++ lit "Sigma:" :: sigma_labels L ++ squared_header ++ pi_header.
Proof. clear. reflexivity. Qed.
Lemma values_length i t l : i < K2 -> length (nonlinear_values digits L sigma pi (shown_squared ps squared) i t l) = length (nonlinear_header L (shown_squared ps squared)).
Proof.
  intros Hi. rewrite values_parts, header_parts, !app_length. cbn [length]. rewrite !app_length. rewrite prefix_length, squared_part_length.
  unfold sigma_cells. rewrite (triangle_length (fun j => format_number digits (entry sigma i j)) i Hi).
  assert (E1 : length (if types_column L then [lit "Types:"] else []) = sigma_start (types_column L)) by (destruct (types_column L); reflexivity).
  assert (E2 : length squared_header = if shown then 1 + K2 else 0) by (unfold squared_header; destruct shown; reflexivity).
  assert (E3 : length (pi_part i l) = length pi_header).
  { unfold pi_part, pi_header. destruct Hpi as [_ E]. unfold D in E. destruct (pi_labels L) as [|x r].
    - rewrite E. reflexivity.
    - rewrite E. cbn [length Nat.ltb Nat.leb]. unfold row_of. rewrite !map_length, seq_length, E. reflexivity. }
  rewrite E1, E2, E3. fold K2. lia.
Qed.

Lemma combine_nth_error {A B} : forall (l : list A) (m : list B) i x y, nth_error l i = Some x -> nth_error m i = Some y -> nth_error (combine l m) i = Some (x, y).
Proof.
  clear. induction l as [|a l IH]; intros [|b m] [|i] x y; cbn; try discriminate.
  - congruence.
  - exact (IH m i x y).
Qed.
Definition all_rows : list (DerivModel.rc_type * text) := combine (types L) (sigma_labels L).
Lemma all_rows_length : length all_rows = K2.
Proof. unfold all_rows. rewrite combine_length, Htypes. unfold K2. lia. Qed.
Lemma all_rows_nth i l : nth_error (sigma_labels L) i = Some l -> exists t, nth_error all_rows i = Some (t, l) /\ nth_error (types L) i = Some t.
Proof.
  intros H. destruct (nth_error (types L) i) as [t|] eqn:E.
  - exists t. split; [exact (combine_nth_error _ _ _ _ _ E H)|reflexivity].
  - apply nth_error_None in E. rewrite Htypes in E. assert (N : nth_error (sigma_labels L) i <> None) by (rewrite H; discriminate).
    apply nth_error_Some in N. unfold K2 in E. lia.
Qed.

(** Rows without standard errors. *)
Lemma plain_rows sq sqse pise : forall rows i0 i t l, nth_error rows i = Some (t, l) ->
  nth i (nonlinear_rows digits L ps sigma pi sq None sqse pise i0 rows) [] = nonlinear_values digits L sigma pi sq (i0 + i) t l.
Proof.
  clear. induction rows as [|[t0 l0] rows IH]; intros i0 [|i] t l H; cbn in H; try discriminate H.
  - injection H as -> ->. cbn [nonlinear_rows app nth]. rewrite Nat.add_0_r. reflexivity.
  - cbn [nonlinear_rows app nth]. rewrite (IH (S i0) i t l H). f_equal. lia.
Qed.
Lemma plain_rows_length sq sqse pise : forall rows i0, length (nonlinear_rows digits L ps sigma pi sq None sqse pise i0 rows) = length rows.
Proof. clear. induction rows as [|[t0 l0] rows IH]; intros i0; cbn; [reflexivity|]. rewrite IH. reflexivity. Qed.
(** Rows with standard errors. *)
Lemma error_rows sq s sqse pise : forall rows i0, i0 + length rows = ncols sigma ->
  let data := nonlinear_rows digits L ps sigma pi sq (Some s) sqse pise i0 rows in
  length data = 3 * length rows - 1 /\
  forall i t l, nth_error rows i = Some (t, l) ->
    nth (3 * i) data [] = nonlinear_values digits L sigma pi sq (i0 + i) t l /\
    nth (3 * i + 1) data [] = nonlinear_errors digits L ps sigma s sqse pise (i0 + i) /\
    (3 * i + 2 < length data -> nth (3 * i + 2) data [] = repeat [] (length (nonlinear_errors digits L ps sigma s sqse pise (i0 + i)))).
Proof.
  clear. induction rows as [|[t0 l0] rows IH]; intros i0 H data; cbn [length] in *.
  - split; [reflexivity|]. intros [|i] t l E; discriminate E.
  - unfold data. cbn [nonlinear_rows]. destruct rows as [|r1 rows].
    + cbn [length] in H. destruct (Nat.ltb_spec i0 (ncols sigma - 1)) as [B|_]; [lia|]. cbn [nonlinear_rows app length]. split; [reflexivity|].
      intros [|i] t l E; cbn in E; [|destruct i; discriminate E]. injection E as -> ->. rewrite Nat.add_0_r. cbn [Nat.mul nth].
      split; [reflexivity|]. split; [reflexivity|]. cbn. lia.
    + destruct (Nat.ltb_spec i0 (ncols sigma - 1)) as [_|B]; [|cbn [length] in H; lia].
      destruct (IH (S i0)) as [HL HN]; [cbn [length] in *; lia|]. cbn [app]. set (rest := nonlinear_rows _ _ _ _ _ _ _ _ _ _ _) in *.
      split; [cbn [length] in *; lia|]. intros [|i] t l E; cbn [nth_error] in E.
      * injection E as -> ->. rewrite Nat.add_0_r. cbn [Nat.mul Nat.add nth]. repeat split; reflexivity.
      * destruct (HN i t l E) as (A & B & C). replace (3 * S i) with (S (S (S (3 * i)))) by lia.
        replace (i0 + S i) with (S i0 + i) by lia. cbn [Nat.add nth]. split; [exact A|]. split; [exact B|].
        intros Q. apply C. cbn [length] in Q. lia.
Qed.

Let T := nonlinear_table digits L ps [] sigma pi squared sigma_se pi_se squared_se.
Let step := if is_some sigma_se then 3 else 1.
Definition value_row (i : nat) : list text := nth (step * i) (t_rows T) [].

Lemma index_bound {A} (l : list A) i x : nth_error l i = Some x -> i < length l.
Proof. clear. intros H. apply nth_error_Some. rewrite H. discriminate. Qed.
Lemma value_rows i l : nth_error (sigma_labels L) i = Some l -> exists t, nth_error (types L) i = Some t /\
  value_row i = nonlinear_values digits L sigma pi (shown_squared ps squared) i t l.
Proof.
  intros H. destruct (all_rows_nth i l H) as (t & E & Et). exists t. split; [exact Et|]. unfold value_row, T, step. cbn [nonlinear_table t_rows].
  destruct sigma_se as [s|]; cbn [is_some].
  - destruct (error_rows (shown_squared ps squared) s (shown_squared ps squared_se) pi_se all_rows 0) as [_ N].
    { rewrite all_rows_length. destruct Hsigma as [_ ->]. reflexivity. }
    destruct (N i t l E) as (A & _ & _). exact A.
  - rewrite Nat.mul_1_l. exact (plain_rows (shown_squared ps squared) (shown_squared ps squared_se) pi_se all_rows 0 i t l E).
Qed.
Lemma rows_length : length (t_rows T) = if is_some sigma_se then 3 * K2 - 1 else K2.
Proof.
  unfold T. cbn [nonlinear_table t_rows]. fold all_rows. rewrite <- all_rows_length. destruct sigma_se as [s|]; cbn [is_some].
  - destruct (error_rows (shown_squared ps squared) s (shown_squared ps squared_se) pi_se all_rows 0) as [E _]; [|exact E].
    rewrite all_rows_length. destruct Hsigma as [_ ->]. reflexivity.
  - apply plain_rows_length.
Qed.
Lemma types_part_length : length (if types_column L then [lit "Types:"] else []) = sigma_start (types_column L).
Proof. clear. destruct (types_column L); reflexivity. Qed.
Lemma sigma_shown : shows (t_header T) value_row (sigma_start (types_column L)) (lit "Sigma:") (sigma_labels L) (sigma_labels L)
  (lower_only (fun i j => format_number digits (entry sigma i j))).
Proof.
  apply (shows_intro _ _ _ _ _ _ _ (if types_column L then [lit "Types:"] else []) (squared_header ++ pi_header)).
  - unfold T. cbn [nonlinear_table t_header]. rewrite header_parts. reflexivity.
  - apply types_part_length.
  - intros i l H. destruct (value_rows i l H) as (t & _ & E). rewrite E, values_parts. pose proof (index_bound _ _ _ H) as B.
    exists (prefix_of t), (sigma_cells i), (squared_part i l ++ pi_part i l). split; [reflexivity|]. split; [apply prefix_length|].
    split; [exact (triangle_length (fun j => format_number digits (entry sigma i j)) i B)|].
    intros j Hj. exact (triangle_cells (fun i j => format_number digits (entry sigma i j)) i j B Hj).
Qed.
Lemma squared_shown q : shown_squared ps squared = Some q ->
  shows (t_header T) value_row (squared_start (types_column L) K2) (lit "Sigma Squared:") (sigma_labels L) (sigma_labels L) (fun i j => format_number digits (entry q i j)).
Proof.
  intros Q. assert (SQ : ncols q = K2).
  { unfold shown_squared in Q. destruct (diagonal_sigma ps); [discriminate Q|]. rewrite Q in Hsq. exact (proj2 Hsq). }
  apply (shows_intro _ _ _ _ _ _ _ ((if types_column L then [lit "Types:"] else []) ++ lit "Sigma:" :: sigma_labels L) pi_header).
  - unfold T. cbn [nonlinear_table t_header]. rewrite header_parts. unfold squared_header, shown. rewrite Q. cbn [is_some].
    rewrite <- app_assoc. reflexivity.
  - rewrite app_length, types_part_length. cbn [length]. unfold squared_start. fold K2. lia.
  - intros i l H. destruct (value_rows i l H) as (t & _ & E). rewrite E, values_parts. pose proof (index_bound _ _ _ H) as B.
    exists (prefix_of t ++ l :: sigma_cells i), (map (format_number digits) (row_of q i)), (pi_part i l).
    unfold squared_part. rewrite Q. split; [rewrite <- app_assoc; reflexivity|]. split; [|split].
    + rewrite app_length, prefix_length. cbn [length]. unfold sigma_cells.
      rewrite (triangle_length (fun j => format_number digits (entry sigma i j)) i B). unfold squared_start. lia.
    + unfold row_of. rewrite !map_length, seq_length. exact SQ.
    + intros j Hj. apply row_cells. rewrite SQ. exact Hj.
Qed.
Lemma pi_shown : pi_labels L <> [] ->
  shows (t_header T) value_row (pi_start (types_column L) K2 shown) (lit "Pi:") (pi_labels L) (sigma_labels L) (fun i j => format_number digits (entry pi i j)).
Proof.
  intros N. destruct Hpi as [_ EP].
  apply (shows_intro _ _ _ _ _ _ _ ((if types_column L then [lit "Types:"] else []) ++ lit "Sigma:" :: sigma_labels L ++ squared_header) []).
  - unfold T. cbn [nonlinear_table t_header]. rewrite header_parts. unfold pi_header. rewrite app_nil_r.
    destruct (pi_labels L) as [|x r]; [congruence|]. rewrite <- app_assoc. cbn [app]. rewrite <- app_assoc. reflexivity.
  - rewrite app_length, types_part_length. cbn [length]. rewrite app_length. unfold squared_header, pi_start, squared_start. destruct shown; cbn [length]; fold K2; lia.
  - intros i l H. destruct (value_rows i l H) as (t & _ & E). rewrite E, values_parts. pose proof (index_bound _ _ _ H) as B.
    exists (prefix_of t ++ l :: sigma_cells i ++ squared_part i l), (map (format_number digits) (row_of pi i)), [].
    assert (PP : pi_part i l = l :: map (format_number digits) (row_of pi i)).
    { unfold pi_part. rewrite EP. unfold D. destruct (pi_labels L) as [|x r]; [congruence|]. reflexivity. }
    rewrite PP. split; [rewrite app_nil_r, <- app_assoc; cbn [app]; rewrite <- app_assoc; reflexivity|]. split; [|split].
    + rewrite app_length, prefix_length. cbn [length]. rewrite app_length. unfold sigma_cells.
      rewrite (triangle_length (fun j => format_number digits (entry sigma i j)) i B). rewrite squared_part_length. unfold pi_start, squared_start. fold K2. lia.
    + unfold row_of. rewrite !map_length, seq_length. exact EP.
    + intros j Hj. apply row_cells. rewrite EP. exact Hj.
Qed.
Lemma types_shown i t : nth_error (types L) i = Some t -> types_column L = true ->
  nth_error (t_header T) 0 = Some (lit "Types:") /\ nth_error (value_row i) 0 = Some (type_title t).
Proof.
  intros H C. split; [unfold T; cbn [nonlinear_table t_header]; rewrite header_parts, C; reflexivity|].
  assert (exists l, nth_error (sigma_labels L) i = Some l) as [l Hl].
  { destruct (nth_error (sigma_labels L) i) as [l|] eqn:E; [exists l; reflexivity|]. apply nth_error_None in E. apply index_bound in H. rewrite Htypes in H. unfold K2 in H. lia. }
  destruct (value_rows i l Hl) as (t' & Ht & E). rewrite E, values_parts. unfold prefix_of. rewrite C. cbn. congruence.
Qed.
Lemma header_length : length (t_header T) =
  sigma_start (types_column L) + (1 + K2) + (if shown then 1 + K2 else 0) + match pi_labels L with [] => 0 | _ => 1 + D end.
Proof.
  clear. unfold T. cbn [nonlinear_table t_header]. rewrite header_parts, app_length. cbn [length]. rewrite !app_length, types_part_length.
  unfold squared_header, pi_header. fold K2. destruct shown, (pi_labels L) eqn:E; cbn [length]; fold K2; subst D; rewrite ?E; cbn [length]; lia.
Qed.

(** Standard errors. *)
Definition error_row (i : nat) : list text := nth (3 * i + 1) (t_rows T) [].
Context (s p : matrix) (Hse : sigma_se = Some s) (Hpe : pi_se = Some p).
Context (Hs : has_shape s K2 K2) (Hp : has_shape p K2 D) (Hqe : optional_shape squared_se K2 K2) (Hq : is_some squared = is_some squared_se).

Definition squared_error_part (i : nat) : list text :=
  match shown_squared ps squared_se with Some q => [] :: map (format_se digits) (row_of q i) | None => [] end.
Definition pi_error_part (i : nat) : list text :=
  if 0 <? ncols p then [] :: map (fun j => if nonlinear_se_printed ps Pi i j then format_se digits (entry p i j) else []) (seq 0 (ncols p)) else [].
Definition sigma_error_cells (i : nat) : list text :=
  map (fun j => if nonlinear_se_printed ps Sigma i j then format_se digits (entry s i j) else []) (seq 0 (i + 1)) ++ repeat [] (ncols sigma - i - 1).
Lemma errors_parts i : nonlinear_errors digits L ps sigma s (shown_squared ps squared_se) (Some p) i =
  repeat [] (sigma_start (types_column L)) ++ [] :: sigma_error_cells i ++ squared_error_part i ++ pi_error_part i.
Proof.
  clear. unfold nonlinear_errors, squared_error_part, pi_error_part, sigma_error_cells. rewrite <- !app_assoc.
  destruct (types_column L); reflexivity.
Qed.
Lemma error_rows_are i l : nth_error (sigma_labels L) i = Some l -> error_row i =
  repeat [] (sigma_start (types_column L)) ++ [] :: sigma_error_cells i ++ squared_error_part i ++ pi_error_part i.
Proof.
  intros H. rewrite <- errors_parts. unfold error_row, T. cbn [nonlinear_table t_rows]. rewrite Hse, Hpe. fold all_rows.
  destruct (all_rows_nth i l H) as (t & E & _).
  destruct (error_rows (shown_squared ps squared) s (shown_squared ps squared_se) (Some p) all_rows 0) as [_ N].
  { rewrite all_rows_length. destruct Hsigma as [_ ->]. reflexivity. }
  destruct (N i t l E) as (_ & A & _). exact A.
Qed.
Lemma error_shown : shown = is_some (shown_squared ps squared_se).
Proof. clear - Hq. unfold shown, shown_squared. destruct (diagonal_sigma ps); [reflexivity|exact Hq]. Qed.
Lemma squared_error_length i : length (squared_error_part i) = if shown then 1 + K2 else 0.
Proof.
  rewrite error_shown. unfold squared_error_part, shown_squared. destruct (diagonal_sigma ps); [reflexivity|]. destruct squared_se as [q|]; [|reflexivity].
  cbn [is_some length]. unfold row_of. rewrite !map_length, seq_length. rewrite (proj2 Hqe). reflexivity.
Qed.
Lemma blank_label i (l : text) : nth_error (map (fun _ => []) (sigma_labels L)) i = Some l -> l = [] /\ exists l', nth_error (sigma_labels L) i = Some l'.
Proof.
  clear. rewrite nth_error_map. destruct (nth_error (sigma_labels L) i) as [l'|]; [|discriminate]. cbn. intros E. split; [congruence|]. exists l'. reflexivity.
Qed.
Lemma sigma_errors_shown : shows (t_header T) error_row (sigma_start (types_column L)) (lit "Sigma:") (sigma_labels L) (map (fun _ => []) (sigma_labels L))
  (lower_only (only_in (unfixed ps) Sigma (fun i j => format_se digits (entry s i j)))).
Proof.
  apply (shows_intro _ _ _ _ _ _ _ (if types_column L then [lit "Types:"] else []) (squared_header ++ pi_header)).
  - unfold T. cbn [nonlinear_table t_header]. rewrite header_parts. reflexivity.
  - apply types_part_length.
  - intros i l0 H. apply blank_label in H. destruct H as (-> & l & H). rewrite (error_rows_are i l H). pose proof (index_bound _ _ _ H) as B.
    exists (repeat [] (sigma_start (types_column L))), (sigma_error_cells i), (squared_error_part i ++ pi_error_part i). split; [reflexivity|].
    split; [apply repeat_length|]. unfold sigma_error_cells.
    split; [exact (triangle_length (fun j => if nonlinear_se_printed ps Sigma i j then format_se digits (entry s i j) else []) i B)|].
    intros j Hj. rewrite (triangle_cells (fun i j => if nonlinear_se_printed ps Sigma i j then format_se digits (entry s i j) else []) i j B Hj).
    unfold lower_only. destruct (j <=? i); [|reflexivity]. rewrite (printed_unfixed Sigma (fun i j => format_se digits (entry s i j))). reflexivity.
Qed.
Lemma squared_errors_shown q : shown_squared ps squared_se = Some q ->
  shows (t_header T) error_row (squared_start (types_column L) K2) (lit "Sigma Squared:") (sigma_labels L) (map (fun _ => []) (sigma_labels L))
    (fun i j => format_se digits (entry q i j)).
Proof.
  intros Q. assert (SQ : ncols q = K2).
  { unfold shown_squared in Q. destruct (diagonal_sigma ps); [discriminate Q|]. rewrite Q in Hqe. exact (proj2 Hqe). }
  apply (shows_intro _ _ _ _ _ _ _ ((if types_column L then [lit "Types:"] else []) ++ lit "Sigma:" :: sigma_labels L) pi_header).
  - unfold T. cbn [nonlinear_table t_header]. rewrite header_parts. unfold squared_header. rewrite error_shown, Q. cbn [is_some].
    rewrite <- app_assoc. reflexivity.
  - rewrite app_length, types_part_length. cbn [length]. unfold squared_start. fold K2. lia.
  - intros i l0 H. apply blank_label in H. destruct H as (-> & l & H). rewrite (error_rows_are i l H). pose proof (index_bound _ _ _ H) as B.
    exists (repeat [] (sigma_start (types_column L)) ++ [] :: sigma_error_cells i), (map (format_se digits) (row_of q i)), (pi_error_part i).
    unfold squared_error_part. rewrite Q. split; [rewrite <- app_assoc; reflexivity|]. split; [|split].
    + rewrite app_length, repeat_length. cbn [length]. unfold sigma_error_cells.
      rewrite (triangle_length (fun j => if nonlinear_se_printed ps Sigma i j then format_se digits (entry s i j) else []) i B). unfold squared_start. lia.
    + unfold row_of. rewrite !map_length, seq_length. exact SQ.
    + intros j Hj. apply row_cells. rewrite SQ. exact Hj.
Qed.
Lemma pi_errors_shown : pi_labels L <> [] ->
  shows (t_header T) error_row (pi_start (types_column L) K2 shown) (lit "Pi:") (pi_labels L) (map (fun _ => []) (sigma_labels L))
    (only_in (unfixed ps) Pi (fun i j => format_se digits (entry p i j))).
Proof.
  intros N. destruct Hp as [_ EP].
  apply (shows_intro _ _ _ _ _ _ _ ((if types_column L then [lit "Types:"] else []) ++ lit "Sigma:" :: sigma_labels L ++ squared_header) []).
  - unfold T. cbn [nonlinear_table t_header]. rewrite header_parts. unfold pi_header. rewrite app_nil_r.
    destruct (pi_labels L) as [|x r]; [congruence|]. rewrite <- app_assoc. cbn [app]. rewrite <- app_assoc. reflexivity.
  - rewrite app_length, types_part_length. cbn [length]. rewrite app_length. unfold squared_header, pi_start, squared_start. destruct shown; cbn [length]; fold K2; lia.
  - intros i l0 H. apply blank_label in H. destruct H as (-> & l & H). rewrite (error_rows_are i l H). pose proof (index_bound _ _ _ H) as B.
    exists (repeat [] (sigma_start (types_column L)) ++ [] :: sigma_error_cells i ++ squared_error_part i),
      (map (fun j => if nonlinear_se_printed ps Pi i j then format_se digits (entry p i j) else []) (seq 0 (ncols p))), [].
    assert (PP : pi_error_part i = [] :: map (fun j => if nonlinear_se_printed ps Pi i j then format_se digits (entry p i j) else []) (seq 0 (ncols p))).
    { unfold pi_error_part. rewrite EP. unfold D. destruct (pi_labels L) as [|x r]; [congruence|]. reflexivity. }
    rewrite PP. split; [rewrite app_nil_r, <- app_assoc; cbn [app]; rewrite <- app_assoc; reflexivity|]. split; [|split].
    + rewrite app_length, repeat_length. cbn [length]. rewrite app_length. unfold sigma_error_cells.
      rewrite (triangle_length (fun j => if nonlinear_se_printed ps Sigma i j then format_se digits (entry s i j) else []) i B). rewrite squared_error_length.
      unfold pi_start, squared_start. fold K2. lia.
    + rewrite map_length, seq_length. exact EP.
    + intros j Hj. rewrite nth_error_map_seq by (rewrite EP; exact Hj). rewrite (printed_unfixed Pi (fun i j => format_se digits (entry p i j))). reflexivity.
Qed.
Lemma errors_length i : i < K2 -> length (nonlinear_errors digits L ps sigma s (shown_squared ps squared_se) (Some p) i) = length (t_header T).
Proof.
  intros B. rewrite errors_parts, header_length, app_length, repeat_length. cbn [length]. rewrite !app_length, squared_error_length. unfold sigma_error_cells.
  rewrite (triangle_length (fun j => if nonlinear_se_printed ps Sigma i j then format_se digits (entry s i j) else []) i B).
  assert (E : length (pi_error_part i) = match pi_labels L with [] => 0 | _ => 1 + D end).
  { unfold pi_error_part. rewrite (proj2 Hp). unfold D. destruct (pi_labels L) as [|x r]; [reflexivity|]. cbn [length Nat.ltb Nat.leb]. rewrite map_length, seq_length. reflexivity. }
  rewrite E. lia.
Qed.
Lemma blank_rows i : i + 1 < K2 -> nth (3 * i + 2) (t_rows T) [] = repeat [] (length (t_header T)).
Proof.
  intros B. destruct (nth_error (sigma_labels L) i) as [l|] eqn:H; [|apply nth_error_None in H; unfold K2 in B; lia].
  rewrite <- (errors_length i) by lia. unfold T. cbn [nonlinear_table t_rows]. rewrite Hse, Hpe. fold all_rows.
  destruct (all_rows_nth i l H) as (t & E & _).
  destruct (error_rows (shown_squared ps squared) s (shown_squared ps squared_se) (Some p) all_rows 0) as [LD N].
  { rewrite all_rows_length. destruct Hsigma as [_ ->]. reflexivity. }
  destruct (N i t l E) as (_ & _ & A). apply A. rewrite LD, all_rows_length. lia.
Qed.
End Show.

(* ---------- Reading ---------- *)

Lemma one_line_header header : (exists s, In s header /\ s <> []) -> header_rows (map (fun s => [s]) header) = [header].
Proof.
  intros (s & Hs & N). assert (M : list_max (map (@length text) (map (fun s : text => [s]) header)) = 1).
  { rewrite map_map. cbn [length]. destruct header as [|h r]; [destruct Hs|]. clear. cbn [map list_max fold_right].
    change (fold_right Nat.max 0 (map (fun _ : text => 1) r)) with (list_max (map (fun _ : text => 1) r)).
    assert (B : list_max (map (fun _ : text => 1) r) <= 1) by (apply list_max_le; rewrite Forall_map; apply Forall_forall; intros; lia). lia. }
  unfold header_rows. rewrite M. cbn [header_loop].
  assert (E1 : header_row (map (fun s : text => [s]) header) 1 = header).
  { unfold header_row. rewrite map_map. cbn. apply map_id. }
  assert (E2 : forallb is_empty (header_row (map (fun s : text => [s]) header) 2) = true).
  { unfold header_row. rewrite map_map. cbn. apply forallb_forall. intros x Hx. apply in_map_iff in Hx. destruct Hx as (y & <- & _). reflexivity. }
  rewrite E1, E2. destruct (forallb is_empty header) eqn:E; [|reflexivity].
  rewrite forallb_forall in E. specialize (E s Hs). destruct s; [congruence|discriminate E].
Qed.
Lemma fitted_same n (row : list text) : length row = n -> fitted n row = row.
Proof.
  intros <-. unfold fitted. rewrite firstn_app. rewrite Nat.sub_diag. rewrite firstn_all. cbn [firstn]. apply app_nil_r.
Qed.
Lemma readable_table T : (exists s, In s (t_header T) /\ s <> []) -> on_one_line (t_title T) ->
  (forall s, In s (t_header T) -> on_one_line s) -> (forall r, In r (t_rows T) -> length r = length (t_header T) /\ Forall on_one_line r) ->
  (forall j, j < length (t_header T) -> used j (t_header T :: t_rows T)) -> readable T.
Proof.
  intros HN HT HL HR HU. pose proof (one_line_header _ HN) as HH.
  assert (LM : length (map (fun s : text => [s]) (t_header T)) = length (t_header T)) by apply map_length.
  assert (FR : map (fitted (length (t_header T))) (t_rows T) = t_rows T).
  { rewrite <- (map_id (t_rows T)) at 2. apply map_ext_in. intros r Hr. apply fitted_same. exact (proj1 (HR r Hr)). }
  destruct (C152_read (map (fun s => [s]) (t_header T)) (t_rows T) (Some (t_title T)) true (t_lines T)) as (s & hdr & dat & dashes & E & LO & H & D).
  - destruct HN as (s & Hs & _). destruct (t_header T); [destruct Hs|discriminate].
  - intros c s Hc Hs. apply in_map_iff in Hc. destruct Hc as (x & <- & Hx). destruct Hs as [<-|[]]. exact (HL x Hx).
  - intros r s Hr Hs. exact (proj1 (Forall_forall _ _) (proj2 (HR r Hr)) s Hs).
  - intros t [= <-]. exact HT.
  - rewrite LM, HH, FR. exact HU.
  - rewrite HH in H. cbn [map] in H. destruct hdr as [|h [|h' hdr]]; cbn [map] in H; try discriminate H. injection H as H.
    exists s, h, dat, dashes. split; [exact E|]. split; [exact LO|]. split; [exact H|]. rewrite D, LM. apply map_ext_in.
    intros r Hr. rewrite fitted_same; [reflexivity|]. exact (proj1 (HR r Hr)).
Qed.

Lemma replace_chars p q c : forall s k, In c (replace_from p q k s) -> In c q \/ In c s.
Proof.
  induction s as [|x s IH]; intros k H; cbn [replace_from] in H; [destruct H|].
  destruct k as [|k]; [|destruct (IH _ H) as [A|A]; cbn; auto].
  destruct (starts_with p (x :: s)).
  - apply in_app_iff in H. destruct H as [H|H]; [left; exact H|]. destruct (IH _ H) as [A|A]; cbn; auto.
  - destruct H as [<-|H]; [cbn; auto|]. destruct (IH _ H) as [A|A]; cbn; auto.
Qed.
Lemma newline_not_digit : is_digit newline = false.
Proof. reflexivity. Qed.
Lemma scientific_one_line digits x : on_one_line (scientific digits x).
Proof.
  unfold on_one_line, scientific. rewrite !in_app_iff. intros [H|[H|[H|H]]].
  - destruct H as [H|[]]. destruct (Raux.Rlt_bool x 0); discriminate H.
  - apply point_in in H. destruct H as [H|H]; [discriminate H|]. revert H. apply digits_not; [reflexivity|]. apply last_digits_digits. apply Z.abs_nonneg.
  - destruct H as [H|[H|[]]]; [discriminate H|]. destruct (exponent digits x <? 0)%Z; discriminate H.
  - revert H. apply digits_not; [reflexivity|]. apply (padded_spec 2). apply Z.abs_nonneg.
Qed.
Lemma centered_one_line w s : on_one_line s -> on_one_line (centered_in w s).
Proof. intros H I. apply H. apply (centered_chars w s newline); [discriminate|exact I]. Qed.
Lemma number_one_line digits f : on_one_line (format_number digits f).
Proof.
  unfold format_number. cbv zeta. set (c := centered_in _ _).
  assert (H : on_one_line c).
  { unfold c. apply centered_one_line. destruct f as [x| | |]; [apply scientific_one_line| | |]; unfold on_one_line; cbn; intuition discriminate. }
  clearbody c. destruct (contains _ c); [|exact H]. intros I. apply replace_chars in I. destruct I as [I|I]; [|exact (H I)]. cbn in I. intuition discriminate.
Qed.
Lemma se_one_line digits f : on_one_line (format_se digits f).
Proof.
  unfold format_se. cbv zeta. pose proof (number_one_line digits f) as H. set (n := format_number digits f) in *. clearbody n.
  destruct (find _ _) as [s|] eqn:E.
  - apply find_some in E. destruct E as [E _]. intros I. apply replace_chars in I. destruct I as [I|I]; [|exact (H I)].
    cbn [In] in E. destruct E as [<-|[<-|[<-|[]]]]; cbn in I; intuition discriminate.
  - unfold on_one_line. rewrite !in_app_iff. cbn. intros [I|[I|I]]; [intuition discriminate|exact (H I)|intuition discriminate].
Qed.
Lemma read_stripped digits x : (0 < digits)%nat -> read_number (strip (format_number digits (Num x))) = read_number (format_number digits (Num x)).
Proof.
  intros Hd. rewrite (format_finite digits x Hd). unfold read_number. rewrite strip_centered.
  assert (B : ~ In blank (scientific digits x)).
  { unfold scientific. rewrite !in_app_iff. intros [H|[H|[H|H]]].
    - destruct H as [H|[]]. destruct (Raux.Rlt_bool x 0); discriminate H.
    - apply point_in in H. destruct H as [H|H]; [discriminate H|]. revert H. apply digits_not; [reflexivity|]. apply last_digits_digits. apply Z.abs_nonneg.
    - destruct H as [H|[H|[]]]; [discriminate H|]. destruct (exponent digits x <? 0)%Z; discriminate H.
    - revert H. apply digits_not; [reflexivity|]. apply (padded_spec 2). apply Z.abs_nonneg. }
  rewrite (strip_no_blank _ B), (strip_no_blank _ B). reflexivity.
Qed.

(* ---------- Rows of the table of nonlinear coefficients ---------- *)

Lemma nonlinear_rows_in digits L ps sigma pi sq sse sqse pise : forall rows i0 r,
  In r (nonlinear_rows digits L ps sigma pi sq sse sqse pise i0 rows) ->
  exists i t l, i0 <= i < i0 + length rows /\ In (t, l) rows /\
    (r = nonlinear_values digits L sigma pi sq i t l \/
     exists s, sse = Some s /\ (r = nonlinear_errors digits L ps sigma s sqse pise i \/ r = repeat [] (length (nonlinear_errors digits L ps sigma s sqse pise i)))).
Proof.
  induction rows as [|[t l] rows IH]; intros i0 r H; [destruct H|]. cbn [nonlinear_rows] in H. destruct H as [<-|H].
  - exists i0, t, l. cbn [length In]. split; [lia|]. split; [auto|]. left. reflexivity.
  - apply in_app_iff in H. destruct H as [H|H].
    + destruct sse as [s|]; [|destruct H]. exists i0, t, l. cbn [length In]. split; [lia|]. split; [auto|]. right. exists s. split; [reflexivity|].
      destruct H as [<-|H]; [left; reflexivity|]. destruct (i0 <? ncols sigma - 1); [|destruct H]. destruct H as [<-|[]]. right. reflexivity.
    + destruct (IH (S i0) r H) as (i & t' & l' & B & I & R). exists i, t', l'. cbn [length In]. split; [lia|]. split; [auto|exact R].
Qed.
Lemma one_line_nil : on_one_line [].
Proof. intros []. Qed.
Lemma one_line_map {A} (f : A -> text) l : (forall x, on_one_line (f x)) -> Forall on_one_line (map f l).
Proof. intros H. apply Forall_map, Forall_forall. intros x _. exact (H x). Qed.
Lemma one_line_repeat n : Forall on_one_line (repeat ([] : text) n).
Proof. apply Forall_forall. intros x H. apply repeat_spec in H. subst x. exact one_line_nil. Qed.
Lemma values_one_line digits L sigma pi sq i t l : on_one_line l -> Forall on_one_line (nonlinear_values digits L sigma pi sq i t l).
Proof.
  intros H. unfold nonlinear_values. repeat (apply Forall_app; split).
  - destruct (types_column L); repeat constructor. destruct t; unfold on_one_line; cbn; intuition discriminate.
  - repeat constructor. exact H.
  - apply one_line_map. intros j. apply number_one_line.
  - apply one_line_repeat.
  - destruct sq as [q|]; [|constructor]. constructor; [exact H|]. apply one_line_map. intros x. apply number_one_line.
  - destruct (0 <? ncols pi); [|constructor]. constructor; [exact H|]. apply one_line_map. intros x. apply number_one_line.
Qed.
Lemma errors_one_line digits L ps sigma s sq pise i : Forall on_one_line (nonlinear_errors digits L ps sigma s sq pise i).
Proof.
  unfold nonlinear_errors. repeat (apply Forall_app; split).
  - apply one_line_repeat.
  - apply one_line_map. intros j. destruct (nonlinear_se_printed _ _ _ _); [apply se_one_line|apply one_line_nil].
  - apply one_line_repeat.
  - destruct sq as [q|]; [|constructor]. constructor; [exact one_line_nil|]. apply one_line_map. intros x. apply se_one_line.
  - destruct pise as [p|]; [|constructor]. destruct (0 <? ncols p); [|constructor]. constructor; [exact one_line_nil|]. apply one_line_map.
    intros j. destruct (nonlinear_se_printed _ _ _ _); [apply se_one_line|apply one_line_nil].
Qed.
Lemma full_header T j : (forall s, In s (t_header T) -> s <> []) -> j < length (t_header T) -> used j (t_header T :: t_rows T).
Proof.
  intros H Hj. exists (t_header T). split; [left; reflexivity|]. apply H. apply nth_In. exact Hj.
Qed.
Lemma nonlinear_header_proper L sq : proper (sigma_labels L) -> proper (pi_labels L) -> proper (nonlinear_header L sq).
Proof.
  intros HS HP s H. unfold nonlinear_header in H. rewrite in_app_iff in H. cbn [In] in H. rewrite !in_app_iff in H.
  assert (P : forall t : text, s = t -> t <> [] -> on_one_line t -> s <> [] /\ on_one_line s) by (intros t -> A B; split; assumption).
  assert (Q : s = lit "Types:" \/ s = lit "Sigma:" \/ s = lit "Sigma Squared:" \/ s = lit "Pi:" \/ In s (sigma_labels L) \/ In s (pi_labels L)).
  { destruct H as [H|[H|[H|[H|H]]]].
    - destruct (types_column L); [|destruct H]. destruct H as [<-|[]]. auto.
    - auto.
    - auto 6.
    - destruct (is_some sq); [|destruct H]. destruct H as [<-|H]; auto 6.
    - destruct (pi_labels L) as [|x r]; [destruct H|]. destruct H as [<-|H]; auto 7. }
  destruct Q as [Q|[Q|[Q|[Q|[Q|Q]]]]]; [| | | |exact (HS s Q)|exact (HP s Q)]; (apply (P _ Q); [discriminate|unfold on_one_line; cbn; intuition discriminate]).
Qed.
Lemma nonlinear_readable digits L ps title sigma pi squared sigma_se pi_se squared_se :
  let K2 := length (sigma_labels L) in let D := length (pi_labels L) in
  length (types L) = K2 -> has_shape sigma K2 K2 -> has_shape pi K2 D -> optional_shape squared K2 K2 ->
  optional_shape squared_se K2 K2 ->
  (forall s, sigma_se = Some s -> is_some squared = is_some squared_se /\ exists p, pi_se = Some p /\ has_shape p K2 D) ->
  proper (sigma_labels L) -> proper (pi_labels L) -> on_one_line title ->
  let T := nonlinear_table digits L ps title sigma pi squared sigma_se pi_se squared_se in
  (forall r, In r (t_rows T) -> length r = length (t_header T)) /\ readable T.
Proof.
  intros K2 D HT HS HP HQ HQE HE PS PP Ht T.
  assert (R : forall r, In r (t_rows T) -> length r = length (t_header T) /\ Forall on_one_line r).
  { intros r Hr. unfold T in Hr. cbn [nonlinear_table t_rows] in Hr. apply nonlinear_rows_in in Hr. destruct Hr as (i & t & l & B & I & R).
    rewrite combine_length, HT in B. assert (Bi : i < K2) by (unfold K2 in *; lia).
    assert (Hl : on_one_line l) by (apply in_combine_r in I; exact (proj2 (PS l I))).
    destruct R as [-> |(s & Es & R)].
    - split; [|apply values_one_line; exact Hl]. eapply (values_length digits L ps sigma pi squared); eassumption.
    - destruct (HE s Es) as (QQ & p & Ep & Hp). rewrite Ep in R.
      assert (EL : length (nonlinear_errors digits L ps sigma s (shown_squared ps squared_se) (Some p) i) = length (t_header T)).
      { eapply (errors_length digits L ps sigma pi squared sigma_se pi_se squared_se); eassumption. }
      destruct R as [-> | ->].
      + split; [exact EL|apply errors_one_line].
      + rewrite repeat_length. split; [exact EL|apply one_line_repeat]. }
  split; [intros r Hr; exact (proj1 (R r Hr))|].
  assert (PH : proper (t_header T)) by (unfold T; cbn [nonlinear_table t_header]; apply nonlinear_header_proper; assumption).
  apply readable_table.
  - exists (lit "Sigma:"). split; [|discriminate]. unfold T. cbn [nonlinear_table t_header]. unfold nonlinear_header. apply in_app_iff. right. left. reflexivity.
  - unfold T, on_one_line. cbn [nonlinear_table t_title]. rewrite in_app_iff. intros [A|A]; [cbn in A; intuition discriminate|exact (Ht A)].
  - intros s Hs. exact (proj2 (PH s Hs)).
  - exact R.
  - intros j Hj. apply full_header; [intros s Hs; exact (proj1 (PH s Hs))|exact Hj].
Qed.

(* ---------- Vectors ---------- *)

Lemma flat_column m j : ncols m = 1 -> j < nrows m -> nth_error (flat m) j = Some (entry m j 0) .
Proof.
  intros C H. unfold flat, ndindex. rewrite C. cbn [seq].
  assert (E : forall n s, list_prod (seq s n) [0] = map (fun i => (i, 0)) (seq s n)).
  { induction n as [|n IH]; intros s; cbn; [reflexivity|]. rewrite IH. reflexivity. }
  rewrite E, map_map. cbn [fst snd]. exact (nth_error_map_seq (fun i => entry m i 0) _ _ H).
Qed.
Lemma flat_length m : length (flat m) = size m.
Proof. unfold flat, ndindex, size. rewrite map_length, prod_length, !seq_length. reflexivity. Qed.
Lemma vector_shown digits ps title k header v se j : ncols v = 1 -> optional_shape se (nrows v) 1 -> length header = nrows v -> j < nrows v ->
  let T := vector_table digits ps title k header v se in
  nth_error (t_header T) j = nth_error header j /\
  nth_error (nth 0 (t_rows T) []) j = Some (format_number digits (entry v j 0)) /\
  match se with
  | Some s => length (t_rows T) = 2 /\ nth_error (nth 1 (t_rows T) []) j = Some (if vector_se_printed ps k j then format_se digits (entry s j 0) else [])
  | None => length (t_rows T) = 1
  end.
Proof.
  intros C S0 H Hj T. split; [reflexivity|]. unfold T. cbn [vector_table t_rows nth]. split.
  - rewrite nth_error_map, flat_column by assumption. reflexivity.
  - destruct se as [s|]; [|reflexivity]. split; [reflexivity|]. cbn [nth]. destruct S0 as [SR SC]. rewrite nth_error_map.
    rewrite (combine_nth_error (seq 0 (length (flat s))) (flat s) j j (entry s j 0)).
    + cbn [option_map fst snd]. unfold vector_se_printed. destruct (existsb _ _); reflexivity.
    + rewrite flat_length. unfold size. rewrite SR, SC, Nat.mul_1_r. rewrite (nth_error_nth' _ 0) by (rewrite seq_length; exact Hj). rewrite seq_nth by exact Hj. reflexivity.
    + apply flat_column; [exact SC|]. rewrite SR. exact Hj.
Qed.
Lemma vector_readable digits ps title k header v se : header <> [] -> length header = size v -> (forall s, se = Some s -> size s = size v) ->
  proper header -> on_one_line title -> let T := vector_table digits ps title k header v se in
  (forall r, In r (t_rows T) -> length r = length (t_header T)) /\ readable T.
Proof.
  intros N H HS P Ht T.
  assert (R : forall r, In r (t_rows T) -> length r = length (t_header T) /\ Forall on_one_line r).
  { intros r Hr. unfold T in *. cbn [vector_table t_rows t_header] in *. destruct Hr as [<-|Hr].
    - rewrite map_length, flat_length. split; [symmetry; exact H|]. apply one_line_map. intros x. apply number_one_line.
    - destruct se as [s|]; [|destruct Hr]. destruct Hr as [<-|[]]. rewrite map_length, combine_length, seq_length, flat_length, Nat.min_id.
      split; [rewrite (HS s eq_refl); symmetry; exact H|]. apply one_line_map. intros [i x]. cbn [fst snd]. destruct (existsb _ _); [apply one_line_nil|apply se_one_line]. }
  split; [intros r Hr; exact (proj1 (R r Hr))|]. apply readable_table.
  - destruct header as [|h r]; [congruence|]. exists h. split; [left; reflexivity|]. apply (P h). left. reflexivity.
  - exact Ht.
  - intros s Hs. exact (proj2 (P s Hs)).
  - exact R.
  - intros j Hj. apply full_header; [intros s Hs; exact (proj1 (P s Hs))|exact Hj].
Qed.

(* ---------- Phi ---------- *)

Lemma flat_map_pairs {A B} (f g : A -> B) : forall l i, i < length l -> forall d d', nth (2 * i) (flat_map (fun x => [f x; g x]) l) d = f (nth i l d') /\
  nth (2 * i + 1) (flat_map (fun x => [f x; g x]) l) d = g (nth i l d').
Proof.
  induction l as [|a l IH]; intros i H d d'; cbn [length] in H; [lia|]. destruct i as [|i]; [split; reflexivity|].
  replace (2 * S i) with (S (S (2 * i))) by lia. cbn [flat_map app Nat.add nth]. exact (IH i ltac:(lia) d d').
Qed.
Lemma flat_map_single {A B} (f : A -> B) : forall l, flat_map (fun x => [f x]) l = map f l.
Proof. induction l as [|a l IH]; cbn; [reflexivity|]. rewrite IH. reflexivity. Qed.
Lemma enumerate_nth {A} (l : list A) i x d : nth_error l i = Some x -> nth i (combine (seq 0 (length l)) l) d = (i, x).
Proof.
  intros H. pose proof (proj1 (nth_error_Some l i)) as B. rewrite H in B. specialize (B ltac:(discriminate)).
  apply nth_error_nth. apply combine_nth_error; [|exact H]. rewrite (nth_error_nth' _ 0) by (rewrite seq_length; exact B). rewrite seq_nth by exact B. reflexivity.
Qed.
Lemma enumerate_length {A} (l : list A) : length (combine (seq 0 (length l)) l) = length l.
Proof. rewrite combine_length, seq_length. lia. Qed.
Lemma phi_printed_fixed ps (f : nat -> nat -> text) i j : (if phi_se_printed ps i j then f i j else []) = except_in (fixed ps) Phi f i j.
Proof.
  unfold except_in. destruct (C70_matrices ps i j) as [H _]. destruct (in_dec parameter_eq_dec (Phi, (i, j)) (fixed ps)) as [I|N].
  - rewrite (proj2 H I). reflexivity.
  - destruct (phi_se_printed ps i j); [reflexivity|]. exfalso. apply N, H. reflexivity.
Qed.
Lemma phi_shown digits L ps title phi se : let n := length (phi_labels L) in
  size phi <> 1 -> has_shape phi n n -> optional_shape se n n ->
  let T := phi_table digits L ps title phi se in
  shows (t_header T) (fun i => nth ((if is_some se then 2 else 1) * i) (t_rows T) []) 0 [] (phi_labels L) (phi_labels L) (fun i j => format_number digits (entry phi i j)) /\
  forall s, se = Some s ->
    shows (t_header T) (fun i => nth (2 * i + 1) (t_rows T) []) 0 [] (phi_labels L) (map (fun _ => []) (phi_labels L))
      (except_in (fixed ps) Phi (fun i j => format_se digits (entry s i j))).
Proof.
  intros n H1 [HR HC] HS T. unfold T, phi_table. destruct (Nat.eqb_spec (size phi) 1) as [E|_]; [contradiction|]. cbn [t_header t_rows]. split.
  - apply (shows_intro _ _ _ _ _ _ _ [] []); [rewrite app_nil_r; reflexivity|reflexivity|].
    intros i l Hl. pose proof (index_bound _ _ _ Hl) as B. exists [], (map (format_number digits) (row_of phi i)), []. rewrite app_nil_r. cbn [app]. split; [|split; [reflexivity|split]].
    + destruct se as [s|]; cbn [is_some].
      * rewrite (proj1 (flat_map_pairs (fun il : nat * text => snd il :: map (format_number digits) (row_of phi (fst il)))
          (fun il : nat * text => [] :: map (fun jx : nat * flt => if phi_se_printed ps (fst il) (fst jx) then format_se digits (snd jx) else []) (combine (seq 0 (ncols s)) (row_of s (fst il))))
          (combine (seq 0 (length (phi_labels L))) (phi_labels L)) i ltac:(rewrite enumerate_length; exact B) [] (0, []))).
        rewrite (enumerate_nth _ i l _ Hl). reflexivity.
      * rewrite Nat.mul_1_l. rewrite flat_map_single.
        rewrite (nth_indep _ [] ((fun il : nat * text => snd il :: map (format_number digits) (row_of phi (fst il))) (0, []))) by (rewrite map_length, enumerate_length; exact B).
        rewrite (map_nth (fun il : nat * text => snd il :: map (format_number digits) (row_of phi (fst il)))).
        rewrite (enumerate_nth _ i l _ Hl). reflexivity.
    + unfold row_of. rewrite !map_length, seq_length. exact HC.
    + intros j Hj. apply row_cells. rewrite HC. exact Hj.
  - intros s ->. destruct HS as [SR SC].
    apply (shows_intro _ _ _ _ _ _ _ [] []); [rewrite app_nil_r; reflexivity|reflexivity|].
    intros i l0 Hl0. rewrite nth_error_map in Hl0. destruct (nth_error (phi_labels L) i) as [l|] eqn:Hl; [|discriminate Hl0]. cbn in Hl0. injection Hl0 as <-.
    pose proof (index_bound _ _ _ Hl) as B.
    exists [], (map (fun jx : nat * flt => if phi_se_printed ps i (fst jx) then format_se digits (snd jx) else []) (combine (seq 0 (ncols s)) (row_of s i))), [].
    rewrite app_nil_r. cbn [app]. split; [|split; [reflexivity|split]].
    + rewrite (proj2 (flat_map_pairs (fun il : nat * text => snd il :: map (format_number digits) (row_of phi (fst il)))
          (fun il : nat * text => [] :: map (fun jx : nat * flt => if phi_se_printed ps (fst il) (fst jx) then format_se digits (snd jx) else []) (combine (seq 0 (ncols s)) (row_of s (fst il))))
          (combine (seq 0 (length (phi_labels L))) (phi_labels L)) i ltac:(rewrite enumerate_length; exact B) [] (0, []))).
      rewrite (enumerate_nth _ i l _ Hl). reflexivity.
    + unfold row_of. rewrite map_length, combine_length, map_length, seq_length, SC. unfold n. lia.
    + intros j Hj. rewrite nth_error_map. rewrite (combine_nth_error (seq 0 (ncols s)) (row_of s i) j j (entry s i j)).
      * cbn [option_map fst snd]. rewrite (phi_printed_fixed ps (fun i j => format_se digits (entry s i j))). reflexivity.
      * rewrite (nth_error_nth' _ 0) by (rewrite seq_length, SC; exact Hj). rewrite seq_nth by (rewrite SC; exact Hj). reflexivity.
      * unfold row_of. apply nth_error_map_seq. rewrite SC. exact Hj.
Qed.

(* ---------- Labels of theta ---------- *)

Lemma flat_map_map {A B C} (f : B -> C) (g : A -> list B) l : flat_map (fun x => map f (g x)) l = map f (flat_map g l).
Proof. induction l as [|a l IH]; cbn; [reflexivity|]. rewrite IH, map_app. reflexivity. Qed.
Lemma accepted_theta_labels L values shapes bv bounded nans ps n : initialize values shapes bv bounded nans = Some ps -> shapes Sigma = [(n, n)] ->
  theta_labels L ps = map (label_of L) (unfixed ps) /\ compress ps = map (at_location (fun k => entry (mat ps k))) (unfixed ps).
Proof.
  intros H Hn. destruct (@accepted values shapes bv bounded nans ps n H Hn) as (lo & up & I & _ & _). split.
  - unfold theta_labels. rewrite flat_map_map. rewrite (unfixed_by_kind _ _ _ _ _ I). reflexivity.
  - exact (compress_map _ _ _ _ _ I _).
Qed.
Lemma phi_readable digits L ps title phi s : let n := length (phi_labels L) in 1 < n -> has_shape phi n n -> has_shape s n n ->
  proper (phi_labels L) -> on_one_line title -> let T := phi_table digits L ps title phi (Some s) in
  (forall r, In r (t_rows T) -> length r = length (t_header T)) /\ readable T.
Proof.
  intros n Hn [HR HC] [SR SC] P Ht T.
  assert (ST : size phi <> 1) by (unfold size; rewrite HR, HC; destruct n as [|[|n']]; lia).
  unfold T, phi_table. destruct (Nat.eqb_spec (size phi) 1) as [E|_]; [contradiction|].
  set (T' := {| t_title := _; t_header := _; t_rows := _; t_lines := _ |}).
  assert (R : forall r, In r (t_rows T') -> length r = length (t_header T') /\ Forall on_one_line r).
  { intros r Hr. unfold T' in *. cbn [t_rows t_header length] in *. apply in_flat_map in Hr. destruct Hr as ([i l] & I & Hr). cbn [fst snd] in Hr.
    apply in_combine_r in I. destruct Hr as [<-|[<-|[]]]; cbn [length].
    - rewrite map_length. unfold row_of. rewrite map_length, seq_length. split; [rewrite HC; reflexivity|]. constructor; [exact (proj2 (P l I))|].
      apply one_line_map. intros x. apply number_one_line.
    - rewrite map_length, combine_length. unfold row_of. rewrite map_length, seq_length. split; [rewrite SC, Nat.min_id; reflexivity|].
      constructor; [exact one_line_nil|]. apply one_line_map. intros [j x]. destruct (phi_se_printed _ _ _); [apply se_one_line|apply one_line_nil]. }
  split; [intros r Hr; exact (proj1 (R r Hr))|].
  destruct (phi_labels L) as [|l0 ls] eqn:EL; [cbn in Hn; unfold n in Hn; cbn in Hn; lia|].
  apply readable_table.
  - exists l0. split; [right; left; reflexivity|]. apply (P l0). left. reflexivity.
  - unfold T', on_one_line. cbn [t_title]. rewrite in_app_iff. intros [A|A]; [cbn in A; intuition discriminate|exact (Ht A)].
  - intros x [<-|Hx]; [exact one_line_nil|exact (proj2 (P x Hx))].
  - exact R.
  - intros [|j] Hj.
    + exists (l0 :: map (format_number digits) (row_of phi 0)). split; [right; left; reflexivity|]. cbn [nth]. apply (P l0). left. reflexivity.
    + exists (t_header T'). split; [left; reflexivity|]. unfold T'. refine (proj1 (P (nth j (l0 :: ls) []) _)). apply nth_In. unfold T' in Hj. cbn [t_header length] in Hj. cbn [length]. lia.
Qed.

Lemma split_blank : forall (a b s t : text), ~ In blank a -> ~ In blank b -> a ++ blank :: s = b ++ blank :: t -> a = b /\ s = t.
Proof.
  induction a as [|x a IH]; intros [|y b] s t A B E; cbn in E.
  - injection E as E. auto.
  - injection E as E _. exfalso. apply B. left. congruence.
  - injection E as E _. exfalso. apply A. left. congruence.
  - injection E as -> E. cbn in A, B. destruct (IH b s t) as [-> ->]; [tauto|tauto|exact E|]. split; reflexivity.
Qed.
Lemma nodup_nth_inj (l : list text) i j : NoDup l -> i < length l -> j < length l -> nth i l [] = nth j l [] -> i = j.
Proof. intros H. apply NoDup_nth. exact H. Qed.
Lemma pair_label_inj (l m : list text) sep i j i' j' : NoDup l -> NoDup m -> (forall s, In s l -> ~ In blank s) ->
  i < length l -> i' < length l -> j < length m -> j' < length m ->
  nth i l [] ++ (blank :: sep) ++ nth j m [] = nth i' l [] ++ (blank :: sep) ++ nth j' m [] -> i = i' /\ j = j'.
Proof.
  intros NL NM B Hi Hi' Hj Hj' E. cbn [app] in E.
  apply split_blank in E; [|apply B, nth_In; assumption|apply B, nth_In; assumption].
  destruct E as [E1 E2]. apply app_inv_head in E2. split; [exact (nodup_nth_inj l i i' NL Hi Hi' E1)|exact (nodup_nth_inj m j j' NM Hj Hj' E2)].
Qed.
