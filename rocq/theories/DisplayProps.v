(** Theorems about displayed progress: C156. *)
From Coq Require Import Ascii String Reals ZArith List Arith Bool Lia Lra.
From Verif Require Import FltModel TableModel TableSpec FormatModel FormatSpec ProgressModel ProgressSpec ProgressProofs ProgressProps DisplayModel DisplaySpec DisplayProofs.
Import ListNotations.

(** Unless an objective that could not be computed was multiplied in place, an improvement is displayed exactly for objectives that are
    less than all numbers before them, of which there are some, and it is by how much. *)
Theorem C156_improvements Theta (c : computation Theta) cfg h p l h' recs :
  evaluations c cfg h p l = (h', recs) -> objective p < length h ->
  (on_error cfg <> Revert \/ forall v q, In (v, q) recs -> ~ In ObjectiveReversion (errors q)) ->
  length (improvements c cfg h p l) = length recs /\
  forall n d, n < length recs ->
    (nth n (improvements c cfg h p l) None = Some d <-> improves (firstn n (map fst recs)) (nth n (map fst recs) NaN) d).
Proof.
  intros E L R. unfold improvements. rewrite (displayed_running c cfg l h p None h' recs E L ltac:(discriminate) R).
  split; [rewrite map_length, running_length, map_length; reflexivity|]. intros n d Hn.
  exact (running_improves (map fst recs) [] PInf n d state_start ltac:(rewrite map_length; exact Hn)).
Qed.
Print Assumptions C156_improvements.

(** Improvements add up to the difference between the first and the smallest objective. *)
Theorem C156_total Theta (c : computation Theta) cfg h p l h' recs x m :
  evaluations c cfg h p l = (h', recs) -> objective p < length h ->
  (on_error cfg <> Revert \/ forall v q, In (v, q) recs -> ~ In ObjectiveReversion (errors q)) ->
  first_number (map fst recs) x -> least (map fst recs) m ->
  sum_shown (improvements c cfg h p l) = (x - m)%R.
Proof.
  intros E L R F M. unfold improvements. rewrite (displayed_running c cfg l h p None h' recs E L ltac:(discriminate) R).
  exact (running_total_start (map fst recs) [] x m state_start F M).
Qed.
Print Assumptions C156_total.

(** Otherwise an improvement can be displayed for an objective that is greater than an earlier one: the array in which the smallest
    objective is kept is multiplied by the punishment. *)
Theorem C156_reverted_refuted :
  ~ (forall Theta (c : computation Theta) cfg s h p l h' recs, computes_shapes c s -> has_shapes p s -> only_other c ->
       evaluations c cfg h p l = (h', recs) -> objective p < length h ->
       forall n d, n < length recs -> nth n (improvements c cfg h p l) None = Some d -> improves (firstn n (map fst recs)) (nth n (map fst recs) NaN) d).
Proof.
  intros H. destruct example_meets as (E1 & E2 & E3 & _ & _ & L & _).
  set (l := [(0, true); (1, true); (0, true)]).
  destruct (evaluations example_computation (example_configuration Revert First) example_heap example_initial l) as [h' recs] eqn:A.
  assert (F := H _ _ _ _ _ _ _ _ _ E1 E2 E3 A L). unfold l in A. lazy -[IZR Rmult Rplus Ropp] in A. injection A as <- <-.
  specialize (F 2 (7 * 2 + - (7))%R). cbn [length map fst firstn nth] in F. specialize (F ltac:(lia)).
  assert (I : nth 2 (improvements example_computation (example_configuration Revert First) example_heap example_initial l) None = Some (7 * 2 + - (7))%R).
  { unfold improvements, l. lazy -[IZR Rmult Rplus Ropp Rlt_dec].
    repeat match goal with |- context [Rlt_dec ?a ?b] => destruct (Rlt_dec a b); cbn end; try lra; unfold improvement; cbn;
      repeat match goal with |- context [Rlt_dec ?a ?b] => destruct (Rlt_dec a b); cbn end; try lra; reflexivity. }
  destruct (F I) as (m & r & (J & _ & K) & Hr & Lt & _). injection Hr as <-. specialize (K 7%R (or_introl eq_refl)). lra.
Qed.
Print Assumptions C156_reverted_refuted.

(** In rows, cells under labels are the step, the time (rounded to seconds), numbers of iterations and evaluations, summed over markets
    for the fixed point, numbers of clipped shares and costs, the objective, its improvement, if there is one, the norm of the gradient,
    and parameters. *)
Theorem C156_cells s e smallest :
  length (progress_cells s e smallest) = length (progress_header s) /\ NoDup (progress_header s) /\
  (forall l, In l (progress_header s) <->
     In l [[lit "GMM"; lit "Step"]; [lit "Computation"; lit "Time"]; [lit "Optimization"; lit "Iterations"]; [lit "Objective"; lit "Evaluations"];
           [lit "Fixed Point"; lit "Iterations"]; [lit "Contraction"; lit "Evaluations"]; [lit "Objective"; lit "Value"]; [lit "Objective"; lit "Improvement"]; [[]; lit "Theta"]] \/
     (l = [lit "Clipped"; lit "Shares"] /\ shares_bounded s = true) \/ (l = [lit "Clipped"; lit "Costs"] /\ costs_bounded s = true) \/
     (l = [lit "Projected"; lit "Gradient Norm"] /\ with_gradient s = true /\ any_bounds s = true) \/
     (l = [lit "Gradient"; lit "Norm"] /\ with_gradient s = true /\ any_bounds s = false)) /\
  forall l t, under (progress_header s) (progress_cells s e smallest) l t ->
    (l = [lit "GMM"; lit "Step"] -> value t = Z.of_nat (step s)) /\
    (l = [lit "Computation"; lit "Time"] -> (0 <= elapsed e)%R -> exists n, read_seconds t = Some n /\ (Rabs (elapsed e - IZR n) <= / 2)%R) /\
    (l = [lit "Optimization"; lit "Iterations"] -> value t = Z.of_nat (iterations e)) /\
    (l = [lit "Objective"; lit "Evaluations"] -> value t = Z.of_nat (evaluation_count e)) /\
    (l = [lit "Fixed Point"; lit "Iterations"] -> value t = Z.of_nat (list_sum (map fst (solver_stats e)))) /\
    (l = [lit "Contraction"; lit "Evaluations"] -> value t = Z.of_nat (list_sum (map snd (solver_stats e)))) /\
    (l = [lit "Clipped"; lit "Shares"] -> value t = Z.of_nat (length (filter (fun b => b) (clipped_shares e)))) /\
    (l = [lit "Clipped"; lit "Costs"] -> value t = Z.of_nat (length (filter (fun b => b) (clipped_costs e)))) /\
    (l = [lit "Objective"; lit "Value"] -> t = format_number (digits s) (objective_value e)) /\
    (l = [lit "Objective"; lit "Improvement"] ->
       (forall a b, smallest = Num a -> objective_value e = Num b -> (b < a)%R -> t = format_number (digits s) (Num (a - b))) /\
       (~ (exists a b, smallest = Num a /\ objective_value e = Num b /\ (b < a)%R) -> strip t = [])) /\
    (l = [lit "Projected"; lit "Gradient Norm"] \/ l = [lit "Gradient"; lit "Norm"] -> t = format_number (digits s) (gradient_norm e)) /\
    (l = [[]; lit "Theta"] -> t = join_commas (map (format_number (digits s)) (theta e))).
Proof.
  split; [apply cells_length|]. split; [|split; [|exact (cells_under s e smallest)]].
  - apply header_distinct.
  - apply header_labels.
Qed.
Print Assumptions C156_cells.

(** Rows are under the labels that were displayed last: every 50 evaluations there are labels, after an empty line unless they are the
    first ones, and rows without labels are in the columns that dashes under them mark. *)
Theorem C156_rows s e e' smallest smallest' : universal s = true -> (0 < digits s)%nat -> fits s e smallest -> fits s e' smallest' -> length (theta e) = length (theta e') ->
  (exists k, evaluation_count e = 50 * k + 1) -> 1 <= evaluation_count e' -> ~ (exists k, evaluation_count e' = 50 * k + 1) ->
  exists before before' hdr dashes line line',
    format_progress s e smallest = Some (join_lines (before ++ (if evaluation_count e =? 1 then [] else [[]]) ++ hdr ++ [dashes; line])) /\
    format_progress s e' smallest' = Some (join_lines (before' ++ [line'])) /\
    (failures e = [] -> before = []) /\ (failures e' = [] -> before' = []) /\
    map (read_row dashes) hdr = map stripped (header_rows (progress_header s)) /\
    read_row dashes line = stripped (progress_cells s e smallest) /\ read_row dashes line' = stripped (progress_cells s e' smallest').
Proof.
  intros U Hd F F' LT (k & Hk) G' K'.
  assert (I : include_header e = true).
  { unfold include_header. rewrite Hk, Nat.add_sub, Nat.mul_comm, Nat.mod_mul by lia. reflexivity. }
  assert (I' : include_header e' = false).
  { unfold include_header. destruct (Nat.eqb_spec ((evaluation_count e' - 1) mod 50) 0) as [M|M]; [|reflexivity]. destruct K'.
    exists ((evaluation_count e' - 1) / 50). pose proof (Nat.div_mod (evaluation_count e' - 1) 50 ltac:(lia)). lia. }
  destruct (progress_read s e e' smallest smallest' U Hd F F' LT I I') as (hdr & dashes & line & line' & A & B & C).
  exists (error_lines (failures e)), (error_lines (failures e')), hdr, dashes, line, line'. split; [|split; [exact B|]].
  - rewrite A. destruct (Nat.ltb_spec 1 (evaluation_count e)), (Nat.eqb_spec (evaluation_count e) 1); try lia; reflexivity.
  - split; [intros ->; reflexivity|]. split; [intros ->; reflexivity|]. exact C.
Qed.
Print Assumptions C156_rows.

(** Errors are displayed before a row, each once in the order in which they appear first, and also if pyblp's display is not used, when
    nothing else is. *)
Theorem C156_errors s e smallest text : format_progress s e smallest = Some text ->
  exists rest,
    (failures e = [] -> text = join_lines rest) /\
    (failures e <> [] -> exists distinct, distinct_in_order (failures e) distinct /\ text = join_lines ([[]; preamble] ++ map snd distinct ++ [[]] ++ rest)) /\
    (universal s = false -> rest = []) /\ (universal s = true -> rest <> []).
Proof.
  unfold format_progress. intros H.
  set (rest := if universal s then match format_table (progress_header s) [progress_cells s e smallest] None false (include_header e) [] with
     | Some t => (if include_header e && (1 <? evaluation_count e) then [[]] else []) ++ [t] | None => [] end else []).
  assert (E : text = join_lines (error_lines (failures e) ++ rest)).
  { unfold rest. destruct (universal s); [|injection H as <-; rewrite app_nil_r; reflexivity].
    destruct (format_table _ _ _ _ _ _); cbn [option_map] in H; [|discriminate H]. injection H as <-. reflexivity. }
  exists rest. split; [intros N; rewrite N in E; exact E|]. split; [|split].
  - intros N. exists (distinct_failures [] (failures e)). split; [apply distinct_ordered|]. rewrite E. unfold error_lines.
    destruct (failures e) as [|f l] eqn:L; [contradiction|]. rewrite failures_text_distinct.
    change ([[]; preamble; join_lines (map snd (distinct_failures [] (f :: l))); []] ++ rest)
      with ([[]; preamble] ++ join_lines (map snd (distinct_failures [] (f :: l))) :: ([[]] ++ rest)).
    apply join_lines_nested. cbn. discriminate.
  - intros U. unfold rest. rewrite U. reflexivity.
  - unfold rest. intros U. rewrite U in H |- *. destruct (format_table _ _ _ _ _ _); cbn [option_map] in H; [|discriminate H].
    intros K. apply app_eq_nil in K. destruct K as [_ K]. discriminate K.
Qed.
Print Assumptions C156_errors.

(** A second evaluation with an improvement, after one with two errors, one of them twice. *)
Definition example_settings : settings := mk_settings 5 true true false true true 1.
Definition example_first : evaluation := mk_evaluation [(lit "A", lit "a"); (lit "B", lit "b"); (lit "A", lit "a")] 2 0 1 [(3, 4); (5, 6)] [true; false; true] [] (Num 7) (Num 1) [Num 2].
Definition example_second : evaluation := mk_evaluation [] 61 1 2 [(3, 4); (5, 7)] [true; false; false] [] (Num 6) (Num 0) [Num 3].
Example C156_applies :
  universal example_settings = true /\ (0 < digits example_settings)%nat /\ fits example_settings example_first PInf /\ fits example_settings example_second (Num 7) /\
  length (theta example_first) = length (theta example_second) /\ (exists k, evaluation_count example_first = 50 * k + 1) /\
  1 <= evaluation_count example_second /\ ~ (exists k, evaluation_count example_second = 50 * k + 1) /\
  distinct_in_order (failures example_first) [(lit "A", lit "a"); (lit "B", lit "b")] /\
  improves [Num 7] (Num 6) 1 /\
  (exists h' recs, evaluations example_computation (example_configuration Revert First) example_heap example_initial [(0, true); (2, true)] = (h', recs) /\
     length recs = 2 /\ forall v q, In (v, q) recs -> ~ In ObjectiveReversion (errors q)).
Proof.
  assert (M : forall n : Z, (n = 0 \/ 1 <= n <= 9)%Z -> moderate (Num (IZR n))).
  { intros n H. unfold moderate. destruct H as [->|H]; [left; reflexivity|right].
    assert (L : (1 <= IZR n <= 9)%R) by (split; apply IZR_le; lia). rewrite Rabs_right by lra.
    assert (A : (powerRZ 10 (-99) <= 1)%R).
    { assert (P : (1 <= powerRZ 10 99)%R) by (change 99%Z with (Z.of_nat 99); rewrite <- pow_powerRZ; apply pow_R1_Rle; lra).
      assert (Q : (powerRZ 10 99 * powerRZ 10 (-99) = 1)%R) by (rewrite <- powerRZ_add by lra; reflexivity).
      revert P Q. generalize (powerRZ 10 99) (powerRZ 10 (-99)). intros a b P Q. apply Rmult_le_reg_l with a; [lra|]. rewrite Q. lra. }
    assert (B : (1 <= powerRZ 10 99)%R) by (change 99%Z with (Z.of_nat 99); rewrite <- pow_powerRZ; apply pow_R1_Rle; lra).
    revert L A B. generalize (powerRZ 10 99) (powerRZ 10 (-99)). intros; lra. }
  split; [reflexivity|]. split; [cbn; lia|].
  split; [repeat split; try (vm_compute; reflexivity); try (cbn; lra); try exact I; try (apply M; lia); constructor; [apply M; lia|constructor]|].
  split.
  { repeat split; try (vm_compute; reflexivity); try (cbn; lra); try exact I; try (apply M; lia).
    - cbn [objective_value example_second fsub fneg fadd]. replace (7 + - (6))%R with 1%R by lra. apply M. lia.
    - constructor; [apply M; lia|constructor]. }
  split; [reflexivity|]. split; [exists 0; reflexivity|]. split; [cbn; lia|]. split; [intros (k & Hk); cbn in Hk; lia|].
  split.
  { change (failures example_first) with (([] ++ [(lit "A", lit "a")]) ++ [(lit "B", lit "b")] ++ [(lit "A", lit "a")]). rewrite app_assoc.
    change [(lit "A", lit "a"); (lit "B", lit "b")] with (([] ++ [(lit "A", lit "a")]) ++ [(lit "B", lit "b")]).
    apply distinct_again; [|left; reflexivity]. apply distinct_new; [apply distinct_new; [constructor|intros []]|]. intros [K|[]]. discriminate K. }
  split; [exists 7%R, 6%R; repeat split; try lra; [left; reflexivity|intros [K|[]]; discriminate K|intros y [K|[]]; injection K as <-; lra]|].
  eexists. eexists. split; [lazy -[IZR Rmult Rplus]; reflexivity|]. split; [reflexivity|].
  intros v q [K|[K|[]]]; injection K as <- <-; cbn; intuition discriminate.
Qed.
