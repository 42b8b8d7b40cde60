(** C170: products are eliminated by ID as asked, and arguments that select products, variables, and draws are validated. *)
From Coq Require Import Reals Lra Lia ZArith List Bool Arith String Ascii.
From Verif Require Import Base FltModel DemandModel DemandProofs SupplyModel SupplySpec SupplyProofs WelfareModel WelfareSpec WelfareProofs ArgsModel ArgsSpec ArgsProofs.
Import ListNotations.

(** An index of a column of product IDs is accepted exactly if there is such a column; otherwise, or if products have no IDs, nothing is computed. *)
Theorem C170_index rows columns v c : validate_index rows columns v = inl c <-> (as_int v = Some (Z.of_nat c) /\ c < columns /\ 0 < rows)%nat.
Proof. exact (index_spec rows columns v c). Qed.
Print Assumptions C170_index.
Theorem C170_refused M avail x rows columns ids e v : (forall c, (c < columns)%nat -> (0 < rows)%nat -> as_int v <> Some (Z.of_nat c)) ->
  exists why, surplus_answer M avail x rows columns ids (Some e) v = Refused why.
Proof.
  intro H. unfold surplus_answer. destruct (validate_index rows columns v) as [c|w] eqn:E; [|exists w; reflexivity].
  apply index_spec in E. destruct E as (E & A & B). destruct (H c A B E).
Qed.
Print Assumptions C170_refused.

(** With a list of IDs, surplus is that without exactly the products that have one of these IDs in the chosen column. *)
Theorem C170_eliminated M avail x rows columns ids l c (mask : nat -> bool) : (c < columns)%nat -> (0 < rows)%nat ->
  (forall j, mask j = true <-> In (ids j c) l) ->
  surplus_answer M avail x rows columns ids (Some (Items l)) (PyInt (Z.of_nat c)) = Surplus false (consumer_surplus M avail (Some mask) x).
Proof.
  intros Hc Hr H. unfold surplus_answer. rewrite (proj2 (index_spec rows columns (PyInt (Z.of_nat c)) c) (conj eq_refl (conj Hc Hr))). rewrite eliminated_items. f_equal. apply surplus_mask_ext.
  intro j. destruct (mask j) eqn:E.
  - apply member_items, H, E.
  - apply not_true_is_false. intro E2. apply member_items, H in E2. congruence.
Qed.
Print Assumptions C170_eliminated.

(** Neither the order of IDs nor repetitions matter. *)
Theorem C170_order M avail x rows columns ids l l' v : same_items l l' ->
  surplus_answer M avail x rows columns ids (Some (Items l)) v = surplus_answer M avail x rows columns ids (Some (Items l')) v.
Proof.
  intro S. unfold surplus_answer. destruct (validate_index rows columns v); [|reflexivity]. rewrite !eliminated_items. f_equal. apply surplus_mask_ext. intro j.
  apply eq_true_iff_eq. rewrite !member_items. apply S.
Qed.
Print Assumptions C170_order.

(** Eliminating more products never raises surplus. *)
Theorem C170_more M avail x rows columns ids l l' v (a : nat -> R) w w' s s' :
  valid_market (fm M) -> (forall y, good_columns M y) -> eps_scale (fm M) = 1%R -> (forall i, (i < fI M)%nat -> (0 < a i)%R /\ no_income_effects (mJ (fm M)) (price_utility M i) (a i)) ->
  (forall i, (i < fI M)%nat -> (0 <= fw M i)%R) -> incl l l' ->
  let av := fun i => option_map (fun (b : nat -> bool) j => indR (b j)) (avail i) in
  surplus_answer M av x rows columns ids (Some (Items l)) v = Surplus w s -> surplus_answer M av x rows columns ids (Some (Items l')) v = Surplus w' s' -> (s' <= s)%R.
Proof.
  intros V G E1 N Hw I av A A'. unfold surplus_answer in A, A'. destruct (validate_index rows columns v) as [c|]; [|discriminate A]. rewrite eliminated_items in A, A'. injection A as _ <-. injection A' as _ <-.
  apply (total_mono M avail _ _ x a V G E1 N Hw). intros j _ E. apply member_items. apply I. apply member_items, E.
Qed.
Print Assumptions C170_more.

(** IDs of no product are not refused: they are ignored. *)
Theorem C170_unknown_refuted M avail x rows columns ids l v p : (forall j c, ids j c <> p) ->
  surplus_answer M avail x rows columns ids (Some (Items (p :: l))) v = surplus_answer M avail x rows columns ids (Some (Items l)) v.
Proof.
  intro U. unfold surplus_answer. destruct (validate_index rows columns v) as [c|]; [|reflexivity]. rewrite !eliminated_items. f_equal. apply surplus_mask_ext. intro j.
  apply eq_true_iff_eq. rewrite !member_items. cbn. split; [intros [E|E]; [destruct (U j c (eq_sym E))|exact E]|auto].
Qed.
Print Assumptions C170_unknown_refuted.

(** With a string, there is a warning, and products whose IDs are parts of the string are eliminated, not only the one with that ID; numeric IDs make it fail. *)
Theorem C170_text_refuted M avail x rows columns ids t c (mask : nat -> bool) : (c < columns)%nat -> (0 < rows)%nat ->
  let answer := surplus_answer M avail x rows columns ids (Some (Text t)) (PyInt (Z.of_nat c)) in
  ((forall j, (j < mJ (fm M))%nat -> exists s, ids j c = Textual s) -> (forall j, mask j = true <-> exists s, ids j c = Textual s /\ part_of s t) -> answer = Surplus true (consumer_surplus M avail (Some mask) x)) /\
  ((exists j z, (j < mJ (fm M))%nat /\ ids j c = Numeric z) -> answer = TypeFailure).
Proof.
  intros Hc Hr answer. unfold answer, surplus_answer. rewrite (proj2 (index_spec rows columns (PyInt (Z.of_nat c)) c) (conj eq_refl (conj Hc Hr))). unfold eliminated. split.
  - intros T H. assert (F : forallb (fun j => match member (ids j c) (Text t) with Some _ => true | None => false end) (seq 0 (mJ (fm M))) = true).
    { apply forallb_forall. intros j Hj. apply in_seq in Hj. destruct (T j ltac:(lia)) as [s ->]. reflexivity. }
    rewrite F. f_equal. apply surplus_mask_ext. intro j. apply eq_true_iff_eq. rewrite H. destruct (ids j c) as [z|s]; cbn.
    + split; [discriminate|intros (s & E & _); discriminate E].
    + rewrite contains_spec. split; [intro P; exists s; auto|intros (s' & E & P); injection E as ->; exact P].
  - intros (j & z & Hj & E). assert (F : forallb (fun j => match member (ids j c) (Text t) with Some _ => true | None => false end) (seq 0 (mJ (fm M))) = false).
    { apply not_true_is_false. intro F. rewrite forallb_forall in F. specialize (F j ltac:(apply in_seq; lia)). cbv beta in F. rewrite E in F. discriminate F. }
    rewrite F. reflexivity.
Qed.
Print Assumptions C170_text_refuted.

(** Indices need not be integers: True is accepted and selects the second column. *)
Theorem C170_boolean_refuted rows columns : (0 < rows)%nat -> (1 < columns)%nat -> validate_index rows columns (PyBool true) = inl 1%nat.
Proof. intros Hr Hc. apply index_spec. auto. Qed.
Print Assumptions C170_boolean_refuted.

(** Names of variables are accepted exactly if a column of X1, X2, or X3 uses the variable; no name only where this is an option. *)
Theorem C170_names X1 X2 X3 none_valid name : validate_name X1 X2 X3 none_valid name = true <->
  match name with None => none_valid = true | Some n => exists f, (In f X1 \/ In f X2 \/ In f X3) /\ In n f end.
Proof.
  destruct name as [n|]; [|reflexivity]. cbn [validate_name]. rewrite existsb_exists. split.
  - intros (m & Hm & E). apply String.eqb_eq in E. subst m. apply in_concat in Hm. destruct Hm as (f & Hf & Hn). exists f. rewrite !in_app_iff in Hf. tauto.
  - intros (f & Hf & Hn). exists n. split; [|apply String.eqb_refl]. apply in_concat. exists f. rewrite !in_app_iff. tauto.
Qed.
Print Assumptions C170_names.

(** Numbers of rows are those of the data or of its first field; data without rows are refused. *)
Theorem C170_size n l : (0 < n)%nat -> extract_size (WithShape n) = Some n /\ extract_size (Mapping (Shaped n :: l)) = Some n /\ extract_size (Mapping (Sized n :: l)) = Some n /\
  extract_size (WithShape 0) = None /\ extract_size (Mapping []) = None /\ extract_size (Mapping (Shaped 0 :: l)) = None /\ extract_size (Mapping (Sized 0 :: l)) = None.
Proof. intro H. unfold extract_size. cbn. destruct n; [lia|]. repeat split. Qed.
Print Assumptions C170_size.
(** But if the first field is a number, the number of fields is taken for the number of rows. *)
Theorem C170_size_refuted l : extract_size (Mapping (Neither :: l)) = Some (S (List.length l)).
Proof. reflexivity. Qed.
Print Assumptions C170_size_refuted.

(** There is a warning about singularity exactly if the condition number exceeds the tolerance, and it says nearly exactly if the number is finite. There is one about failure exactly if there is no
    such number. There is never more than one, and none with an infinite tolerance. *)
Theorem C170_singular tol entries cond : let alarms := detect_singularity tol entries cond in let c := condition_number entries cond in
  (fltb tol PInf = false -> alarms = []) /\
  (fltb tol PInf = true ->
    (alarms = [ConditionFailed] <-> c = NaN) /\ (forall r, c = Num r -> alarms = (if fltb tol c then [NearlySingular c] else [])) /\
    (c = PInf -> alarms = [ExactlySingular PInf]) /\
    (entries <> [] -> c = NaN <-> (forallb ffin entries = false \/ cond = None \/ cond = Some NaN))).
Proof.
  intros alarms c. unfold alarms, detect_singularity, identify_singularity. fold c. split.
  - intros ->. reflexivity.
  - intros T. rewrite T. split; [|split; [|split]].
    + split; [|intros ->; reflexivity]. destruct c as [r| | |] eqn:E; [| | |reflexivity]; cbn [fnan negb]; rewrite ?T; [destruct (fltb tol (Num r))| |destruct (fltb tol NInf)]; cbn; intro Q; discriminate Q.
    + intros r ->. cbn [fnan negb andb]. destruct (fltb tol (Num r)); reflexivity.
    + intros ->. cbn [fnan negb]. rewrite T. reflexivity.
    + intro Ne. unfold c, condition_number. destruct entries as [|e l]; [contradiction Ne; reflexivity|]. destruct (forallb ffin (e :: l)); [|split; [left; reflexivity|reflexivity]].
      destruct cond as [q|]; [|split; auto]. split; [intros ->; auto|]. intros [D|[D|D]]; congruence.
Qed.
Print Assumptions C170_singular.

(** Arrays are accepted by methods of bootstrapped results exactly if there is a row for each product of the selected markets in each draw. *)
Theorem C170_draws draws sizes shape : (0 < draws)%nat ->
  (coerce_vectors draws sizes (Some shape) = true <-> read_as draws (list_sum sizes) 1 shape) /\ (coerce_matrices draws sizes shape = true <-> read_as draws (list_sum sizes) (list_max sizes) shape) /\
  coerce_vectors draws sizes None = true.
Proof. intro D. split; [|split]; [apply shape_spec, D|apply shape_spec, D|reflexivity]. Qed.
Print Assumptions C170_draws.

Local Open Scope string_scope.
(** IDs with two columns. *)
Definition coded (j c : nat) : pid := if Nat.eqb c 0 then Textual (nth j ["A"; "B"; "AB"] "") else Numeric (Z.of_nat j).
Example C170_applies : validate_index 3 2 (PyInt 1) = inl 1%nat /\ validate_index 3 2 (PyInt 2) = inr (TooLarge 1) /\ validate_index 3 2 (PyInt (-1)) = inr NotAnInteger /\ validate_index 3 0 (PyInt 0) = inr NoProductIds /\
  (forall j, (j < 3)%nat -> exists s, coded j 0 = Textual s) /\ (part_of "A" "AB" /\ part_of "B" "AB" /\ part_of "AB" "AB") /\ (forall j c, coded j c <> Textual "C") /\ coded 0 1 = Numeric 0 /\
  same_items [Textual "A"; Textual "B"] [Textual "B"; Textual "A"; Textual "B"] /\
  coerce_vectors 5 [2; 3] (Some [5; 5]) = true /\ coerce_vectors 5 [2; 3] (Some [5]) = false /\ coerce_matrices 5 [2; 3] [5; 5; 3] = true.
Proof.
  repeat match goal with |- _ /\ _ => split end; try reflexivity.
  - intros j Hj. eexists. reflexivity.
  - exists "", "B". reflexivity.
  - exists "A", "". reflexivity.
  - exists "", "". reflexivity.
  - intros j c. unfold coded. destruct (Nat.eqb c 0); [|discriminate]. destruct j as [|[|[|j]]]; cbn; try discriminate. destruct j; discriminate.
  - intro a. cbn. tauto.
Qed.
