(** Proofs about displayed information. *)
From Coq Require Import Ascii String Reals List Arith Bool Lia.
From Verif Require Import FltModel TableModel FormatModel FormatSpec FormatProofs DisplayModel DisplayProofs InfoModel InfoSpec.
Import ListNotations.

Lemma same_text_refl a : same_text a a = true.
Proof. unfold same_text. destruct (list_eq_dec ascii_dec a a); [reflexivity|contradiction]. Qed.
Lemma same_text_neq a b : a <> b -> same_text a b = false.
Proof. intro N. unfold same_text. destruct (list_eq_dec ascii_dec a b); [contradiction|reflexivity]. Qed.

Lemma beneath_map (K : Type) (g h : K -> text) (ks : list K) k : (forall a, In a ks -> g a = g k -> a = k) -> In k ks -> beneath (map g ks) (map h ks) (g k) = Some (h k).
Proof.
  unfold beneath. induction ks as [|a ks IH]; intros I H; [destruct H|]. cbn [map column]. destruct (list_eq_dec ascii_dec (g a) (g k)) as [E|E].
  - rewrite (I a (or_introl eq_refl) E), same_text_refl. reflexivity.
  - rewrite same_text_neq by exact E. destruct H as [->|H]; [contradiction E; reflexivity|]. specialize (IH (fun b Hb => I b (or_intror Hb)) H).
    destruct (column (map g ks) (g k)); [exact IH|discriminate].
Qed.
Lemma column_none (header : list text) l : ~ In l header -> column header l = None.
Proof.
  induction header as [|h t IH]; intro N; [reflexivity|]. cbn [column]. rewrite same_text_neq by (intros ->; apply N; left; reflexivity). rewrite IH by (intro H; apply N; right; exact H). reflexivity.
Qed.
Lemma spaced_inj a b : spaced a = spaced b -> a = b.
Proof. unfold spaced. intro E. apply app_inv_head in E. apply app_inv_tail in E. exact E. Qed.
Lemma number_inj a b : number_of a = number_of b -> a = b.
Proof. intro E. apply Nat2Z.inj. rewrite <- !number_of_value, E. reflexivity. Qed.

(* ---------- Dimensions ---------- *)

Lemma dimension_shown attribute k : In k dimension_keys -> 0 < attribute k ->
  beneath (fst (dimensions_table attribute)) (snd (dimensions_table attribute)) (spaced k) = Some (number_of (attribute k)).
Proof.
  intros I P. cbn [dimensions_table fst snd]. apply (beneath_map text spaced (fun k => number_of (attribute k))).
  - intros a _ E. apply spaced_inj. exact E.
  - apply filter_In. split; [exact I|]. apply Nat.ltb_lt. exact P.
Qed.
Lemma dimension_only attribute j l : nth_error (fst (dimensions_table attribute)) j = Some l -> exists k, In k dimension_keys /\ 0 < attribute k /\ l = spaced k.
Proof.
  intro E. apply nth_error_In in E. cbn [dimensions_table fst] in E. apply in_map_iff in E. destruct E as (k & <- & H). apply filter_In in H. destruct H as [I P]. exists k. split; [exact I|]. split; [apply Nat.ltb_lt; exact P|reflexivity].
Qed.
Lemma dimension_hidden attribute k : attribute k = 0 -> column (fst (dimensions_table attribute)) (spaced k) = None.
Proof.
  intro Z. apply column_none. intro H. apply In_nth_error in H. destruct H as [j E]. apply dimension_only in E. destruct E as (k' & _ & P & E). apply spaced_inj in E. subst k'. lia.
Qed.

(* ---------- Formulations ---------- *)

Lemma column_seq n j : forall a, j < n -> column (map (fun i => spaced (number_of i)) (seq a n)) (spaced (number_of (a + j))) = Some j.
Proof.
  revert j. induction n as [|n IH]; intros j a H; [lia|]. cbn [seq map column]. destruct j as [|j].
  - rewrite Nat.add_0_r, same_text_refl. reflexivity.
  - rewrite same_text_neq by (intro E; apply spaced_inj, number_inj in E; lia). replace (a + S j) with (S a + j) by lia. rewrite IH by lia. reflexivity.
Qed.
Lemma max_in (l : list nat) n : In n l -> n <= list_max l.
Proof. intro H. assert (X := proj1 (list_max_le l (list_max l)) (Nat.le_refl _)). rewrite Forall_forall in X. exact (X n H). Qed.
Lemma formulation_row_in named fs name : In (fs, name) named -> fs <> [] -> In (name :: fs) (formulation_rows named).
Proof. intros I N. unfold formulation_rows. apply in_flat_map. exists (fs, name). split; [exact I|]. cbn [fst snd]. destruct fs; [contradiction N; reflexivity|left; reflexivity]. Qed.
Lemma formulation_row_only named r : In r (formulation_rows named) -> exists fs name, In (fs, name) named /\ fs <> [] /\ r = name :: fs.
Proof.
  intro I. unfold formulation_rows in I. apply in_flat_map in I. destruct I as ((fs & name) & I & R). cbn [fst snd] in R. destruct fs as [|f fs]; [destruct R|]. destruct R as [<-|[]]. exists (f :: fs), name. split; [exact I|]. split; [discriminate|reflexivity].
Qed.
Lemma formulations_shown x1 x2 x3 d c header data : formulations_table x1 x2 x3 d c = Some (header, data) ->
  forall fs name, In (fs, name) (named_formulations x1 x2 x3 d c) -> fs <> [] -> exists row, In row data /\ beneath header row (lit "Column Indices:") = Some name /\
    forall j f, nth_error fs j = Some f -> beneath header row (spaced (number_of j)) = Some f.
Proof.
  unfold formulations_table. intros E fs name I N. assert (R := formulation_row_in _ fs name I N). set (rows := formulation_rows (named_formulations x1 x2 x3 d c)) in *. clearbody rows.
  destruct rows as [|r0 rows0] eqn:Er; [destruct R|]. rewrite <- Er in *. injection E as <- <-. exists (name :: fs). split; [exact R|]. split.
  - unfold beneath. cbn [column]. rewrite same_text_refl. reflexivity.
  - intros j f Ef. unfold beneath. cbn [column]. rewrite same_text_neq by (unfold spaced; cbn; discriminate).
    assert (L : j < list_max (map (fun r => length (tl r)) rows)).
    { apply Nat.lt_le_trans with (length fs); [apply nth_error_Some; rewrite Ef; discriminate|]. apply max_in. apply in_map_iff. exists (name :: fs). split; [reflexivity|exact R]. }
    change (spaced (number_of j)) with (spaced (number_of (0 + j))). rewrite column_seq by exact L. cbn [option_map nth_error]. exact Ef.
Qed.

(* ---------- Micro moments ---------- *)

Lemma centered_length w s : length s <= length (centered_in w s).
Proof. unfold centered_in. rewrite !app_length. lia. Qed.
Lemma number_nonempty digits x : (0 < digits) -> format_number digits (Num x) <> [].
Proof.
  intro D. rewrite format_finite by exact D. intro E. assert (L := centered_length (digits + 6) (scientific digits x)). rewrite E in L. unfold scientific in L. cbn in L. lia.
Qed.

Definition starts (b : list (list text)) : Prop := match b with (([] :: _) :: _) => False | _ => True end.
Lemma blocks_one r rest tail : starts tail -> Forall (fun r => exists t, r = [] :: t) rest -> blocks ((r :: rest) ++ tail) = (r :: rest) :: blocks tail.
Proof.
  intros S. revert r. induction rest as [|r' rest IH]; intros r F.
  - cbn [app]. cbn [blocks]. destruct tail as [|[|[|a t] q] tl]; try reflexivity. contradiction.
  - inversion F as [|? ? (t & ->) F']; subst. specialize (IH ([] :: t) F'). change ((r :: ([] :: t) :: rest) ++ tail) with (r :: (([] :: t) :: rest) ++ tail).
    cbn [blocks]. rewrite IH. cbn [app]. reflexivity.
Qed.
Lemma blocks_flat (bs : list (list (list text))) : Forall (fun b => exists r rest, b = r :: rest /\ (exists c cs, r = c :: cs /\ c <> []) /\ Forall (fun r => exists t, r = [] :: t) rest) bs ->
  blocks (concat bs) = bs /\ starts (concat bs).
Proof.
  induction bs as [|b bs IH]; intro F; [split; [reflexivity|exact I]|]. inversion F as [|? ? (r & rest & -> & (c & cs & -> & N) & R) F']; subst. destruct (IH F') as [E S]. cbn [concat]. split.
  - rewrite blocks_one by assumption. rewrite E. reflexivity.
  - cbn [app starts]. destruct c; [contradiction N; reflexivity|exact I].
Qed.
Definition estimate_of (values : option (list flt)) (i : nat) : option flt := match values with Some v => Some (nth i v NaN) | None => None end.
Lemma micro_blocks digits moments values : 0 < digits ->
  blocks (snd (micro_table digits moments values)) = map (fun im => moment_rows digits (snd im) (estimate_of values (fst im))) (combine (seq 0 (length moments)) moments).
Proof.
  intro D. cbn [micro_table snd]. rewrite flat_map_concat_map. apply blocks_flat. apply Forall_forall. intros b Hb. apply in_map_iff in Hb. destruct Hb as ((i & m) & <- & _). cbn [fst snd].
  unfold moment_rows. eexists _, _. split; [reflexivity|]. split.
  - eexists _, _. split; [reflexivity|]. apply number_nonempty, D.
  - apply Forall_forall. intros r Hr. apply in_map_iff in Hr. destruct Hr as (p & <- & _). eexists. reflexivity.
Qed.
Lemma combine_seq (A : Type) (l : list A) : forall a i x, nth_error l i = Some x -> nth_error (combine (seq a (length l)) l) i = Some (a + i, x).
Proof.
  induction l as [|y l IH]; intros a i x E; [destruct i; discriminate|]. cbn [length seq combine]. destruct i as [|i]; cbn [nth_error] in *; [injection E as ->; rewrite Nat.add_0_r; reflexivity|]. rewrite (IH (S a) i x E). f_equal. f_equal. lia.
Qed.
