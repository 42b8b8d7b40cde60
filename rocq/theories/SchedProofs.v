(** Lemmas about SchedModel. *)
From Coq Require Import Reals Lra Lia ZArith List Bool Arith Permutation Sorted.
From Verif Require Import Base BasicsModel BasicsSpec BasicsProofs SchedModel SchedSpec.
Import ListNotations.
Local Open Scope nat_scope.

Lemma index_of_none i l : index_of i l = None <-> ~ In i l.
Proof.
  induction l as [|j l IH]; simpl; [tauto|]. destruct (Nat.eqb_spec i j) as [->|N].
  - split; [discriminate|]. intros H. exfalso. apply H. left; reflexivity.
  - destruct (index_of i l).
    + split; [discriminate|]. intros H. exfalso. assert (~ In i l) by tauto. apply IH in H0. discriminate.
    + split; [|reflexivity]. intros _ [E|H]; [congruence|]. apply IH in H; auto.
Qed.

Lemma index_of_app_out i a b : ~ In i a ->
  index_of i (a ++ b) = match index_of i b with Some q => Some (List.length a + q) | None => None end.
Proof.
  induction a as [|j a IH]; simpl; intros H; [destruct (index_of i b); reflexivity|].
  destruct (Nat.eqb_spec i j) as [->|N]; [exfalso; apply H; left; reflexivity|].
  rewrite IH by tauto. destruct (index_of i b); reflexivity.
Qed.

(* ---------- assembly ---------- *)

Section AssemblyProofs.
  Context {X S M E : Type}.
  Variable market_rows : Z -> list nat.
  Notation out := (@market_output X S M E).
  Notation asm := (@assembled X S M E).

  Definition same (a b : asm) : Prop :=
    (forall i, rows a i = rows b i) /\ (forall t, stats a t = stats b t) /\
    (forall t, micro a t = micro b t) /\ Permutation (errors a) (errors b).

  Lemma same_refl a : same a a.
  Proof. repeat split; auto. Qed.
  Lemma same_trans a b c : same a b -> same b c -> same a c.
  Proof.
    intros [A [B [C D]]] [A' [B' [C' D']]]. repeat split; intros; try congruence. eapply perm_trans; eassumption.
  Qed.

  Lemma assemble_one_same a b (item : Z * out) : same a b -> same (assemble_one market_rows a item) (assemble_one market_rows b item).
  Proof.
    intros [A [B [C D]]]. destruct item as [t o]. repeat split; cbn [rows stats micro errors assemble_one].
    - intros i. unfold scatter. destruct (index_of i (market_rows t)); rewrite A; reflexivity.
    - intros s. unfold dict_set. rewrite B. reflexivity.
    - intros s. unfold dict_set. rewrite C. reflexivity.
    - apply Permutation_app_tail. assumption.
  Qed.

  Lemma assemble_same items : forall a b : asm, same a b -> same (assemble market_rows a items) (assemble market_rows b items).
  Proof.
    induction items as [|item items IH]; intros a b H; [assumption|]. cbn [assemble fold_left].
    apply IH. apply assemble_one_same. assumption.
  Qed.

  Definition separate (items : list (Z * out)) : Prop :=
    forall t o t' o' i, In (t, o) items -> In (t', o') items -> In i (market_rows t) -> In i (market_rows t') -> t = t'.

  Lemma assemble_swap a (x y : Z * out) : fst x <> fst y ->
    (forall i, In i (market_rows (fst x)) -> In i (market_rows (fst y)) -> fst x = fst y) ->
    same (assemble_one market_rows (assemble_one market_rows a x) y)
         (assemble_one market_rows (assemble_one market_rows a y) x).
  Proof.
    destruct x as [t o], y as [t' o']. cbn [fst]. intros N D. repeat split; cbn [rows stats micro errors assemble_one].
    - intros i. unfold scatter.
      destruct (index_of i (market_rows t)) eqn:E1, (index_of i (market_rows t')) eqn:E2; try reflexivity.
      exfalso. apply N. apply (D i).
      + destruct (in_dec Nat.eq_dec i (market_rows t)) as [|H]; [assumption|]. apply index_of_none in H. congruence.
      + destruct (in_dec Nat.eq_dec i (market_rows t')) as [|H]; [assumption|]. apply index_of_none in H. congruence.
    - intros s. unfold dict_set. destruct (Z.eqb_spec s t), (Z.eqb_spec s t'); congruence.
    - intros s. unfold dict_set. destruct (Z.eqb_spec s t), (Z.eqb_spec s t'); congruence.
    - rewrite <- !app_assoc. apply Permutation_app_head. apply Permutation_app_comm.
  Qed.

  Lemma assemble_permutation items items' : Permutation items items' ->
    NoDup (map fst items) -> separate items -> forall a : asm,
    same (assemble market_rows a items) (assemble market_rows a items').
  Proof.
    induction 1 as [|x items items' P IH|x y items|i1 i2 i3 P1 IH1 P2 IH2]; intros ND SEP a.
    - apply same_refl.
    - cbn [assemble fold_left]. apply IH.
      + inversion ND; assumption.
      + intros t o t' o' i H H'. apply (SEP t o t' o' i); right; assumption.
    - cbn [assemble fold_left]. apply assemble_same. apply assemble_swap.
      + cbn [map] in ND. inversion ND as [|? ? A B]; subst. intros EQ. apply A. left. congruence.
      + intros i Hi Hi'. destruct x as [t o], y as [t' o']. cbn [fst] in *.
        apply (SEP t' o' t o i); [left; reflexivity|right; left; reflexivity| |]; assumption.
    - eapply same_trans; [apply IH1; assumption|]. apply IH2.
      + eapply Permutation_NoDup; [apply Permutation_map; exact P1|assumption].
      + intros t o t' o' i H H'. apply (SEP t o t' o' i); eapply Permutation_in; try eassumption; apply Permutation_sym; assumption.
  Qed.

  Lemma aggregate_same add zero missing (a b : asm) ids : same a b ->
    aggregate add zero missing a ids = aggregate add zero missing b ids.
  Proof.
    intros [_ [_ [H _]]]. unfold aggregate. revert zero. induction ids as [|t ids IH]; intros z; [reflexivity|].
    cbn [fold_left]. rewrite H. apply IH.
  Qed.
End AssemblyProofs.

Lemma distinct_in {E} (eqb : E -> E -> bool) (Heqb : forall a b, reflect (a = b) (eqb a b)) l x :
  In x (distinct eqb l) <-> In x l.
Proof.
  induction l as [|e l IH]; simpl; [tauto|]. rewrite filter_In, IH, negb_true_iff. split.
  - tauto.
  - intros [->|H]; [tauto|]. destruct (Heqb e x) as [->|N]; [tauto|right; tauto].
Qed.
Lemma distinct_nodup {E} (eqb : E -> E -> bool) (Heqb : forall a b, reflect (a = b) (eqb a b)) l :
  NoDup (distinct eqb l).
Proof.
  induction l as [|e l IH]; simpl; constructor.
  - rewrite filter_In, negb_true_iff. intros [_ H]. destruct (Heqb e e); congruence.
  - apply NoDup_filter. assumption.
Qed.
Lemma distinct_perm {E} (eqb : E -> E -> bool) (Heqb : forall a b, reflect (a = b) (eqb a b)) l l' :
  Permutation l l' -> Permutation (distinct eqb l) (distinct eqb l').
Proof.
  intros P. apply NoDup_Permutation; try (apply distinct_nodup; assumption).
  intros x. rewrite !distinct_in by assumption. split; apply Permutation_in; [|apply Permutation_sym]; assumption.
Qed.

(* ---------- market indices ---------- *)

Lemma market_indices_rows ids p t : is_stable_argsort ids p -> In t ids -> market_indices ids p t = rows_of ids t.
Proof.
  intros H Ht. unfold market_indices. rewrite (get_indices_spec ids p H).
  assert (HI : In t (group_unique ids p)) by (apply (group_unique_spec ids p (stable_is_argsort _ _ H)); assumption).
  induction (group_unique ids p) as [|s u IH]; [destruct HI|]. cbn [map find fst].
  destruct (Z.eqb_spec s t) as [->|N]; [reflexivity|]. destruct HI as [->|HI]; [contradiction|]. auto.
Qed.

Lemma rows_of_in ids t i : In i (rows_of ids t) <-> i < List.length ids /\ nth i ids 0%Z = t.
Proof.
  unfold rows_of. rewrite filter_In, in_seq, Z.eqb_eq. split; intros [A B]; split; try assumption; lia.
Qed.

Lemma count_filter ids t n : n <= List.length ids ->
  List.length (filter (fun k => Z.eqb (nth k ids 0%Z) t) (seq 0 n)) = count_occ Z.eq_dec (firstn n ids) t.
Proof.
  induction n as [|n IH]; intros H; [reflexivity|].
  rewrite seq_S, filter_app, app_length, IH by lia.
  assert (E : firstn (S n) ids = firstn n ids ++ [nth n ids 0%Z]).
  { clear IH. revert n H. induction ids as [|x ids IHi]; intros n H; [simpl in H; lia|].
    destruct n as [|n]; [reflexivity|]. change (x :: firstn (S n) ids = x :: (firstn n ids ++ [nth n ids 0%Z])). f_equal. apply IHi. simpl in H; lia. }
  rewrite E, count_occ_app. cbn [Nat.add filter count_occ].
  destruct (Z.eqb_spec (nth n ids 0%Z) t); destruct (Z.eq_dec (nth n ids 0%Z) t); try contradiction; reflexivity.
Qed.

Lemma index_of_rows ids i : i < List.length ids -> index_of i (rows_of ids (nth i ids 0%Z)) = Some (rank ids i).
Proof.
  intros H. unfold rows_of.
  assert (E : seq 0 (List.length ids) = seq 0 i ++ i :: seq (S i) (List.length ids - S i)).
  { replace (List.length ids) with (i + S (List.length ids - S i)) at 1 by lia. rewrite seq_app. reflexivity. }
  rewrite E, filter_app. cbn [filter]. rewrite Z.eqb_refl. rewrite index_of_app_out.
  - cbn [index_of]. rewrite Nat.eqb_refl, Nat.add_0_r. f_equal. apply count_filter. lia.
  - rewrite filter_In, in_seq. lia.
Qed.

Lemma index_of_lt i l q : index_of i l = Some q -> q < List.length l /\ nth q l 0 = i.
Proof.
  revert q. induction l as [|j l IH]; simpl; [discriminate|]. intros q.
  destruct (Nat.eqb_spec i j) as [->|N]; [intros E; injection E as <-; split; [lia|reflexivity]|].
  destruct (index_of i l) as [r|]; [|discriminate]. intros E. injection E as <-.
  destruct (IH r eq_refl). split; [lia|assumption].
Qed.

Lemma filter_length_le {A} (g : A -> bool) l : List.length (filter g l) <= List.length l.
Proof. induction l as [|x l IH]; simpl; [lia|]. destruct (g x); simpl; lia. Qed.

(* ---------- combine ---------- *)

Section CombineProofs.
  Context {V : Type}.
  Notation cells := (@cells V).

  Lemma put_fold (D : Z -> list nat) (f : Z -> list (list V)) t i q j : forall order (c : cells),
    In t order -> index_of i (D t) = Some q -> (forall t', In t' order -> In i (D t') -> t' = t) ->
    fold_left (fun c t => put_rows c (D t) (f t)) order c i j
    = match matrix_cell (f t) q j with Some v => Some v | None => c i j end.
  Proof.
    intros order. induction order as [|s order IH]; intros c Ht Hq U; [destruct Ht|]. cbn [fold_left].
    destruct (in_dec Z.eq_dec t order) as [D1|D1].
    - rewrite IH; [|assumption|assumption|intros; apply U; [right|]; assumption].
      destruct (matrix_cell (f t) q j) eqn:E; [reflexivity|]. unfold put_rows.
      destruct (index_of i (D s)) as [r|] eqn:E2; [|reflexivity].
      assert (s = t).
      { apply U; [left; reflexivity|]. destruct (in_dec Nat.eq_dec i (D s)) as [|X]; [assumption|].
        apply index_of_none in X. congruence. }
      subst s. rewrite Hq in E2. injection E2 as <-. rewrite E. reflexivity.
    - destruct Ht as [->|Ht]; [|contradiction].
      assert (G : forall c : cells, fold_left (fun c t => put_rows c (D t) (f t)) order c i j = c i j).
      { assert (U' : forall t', In t' order -> ~ In i (D t')).
        { intros t' H' Hi. apply D1. rewrite <- (U t'); [assumption|right; assumption|assumption]. }
        clear -U'. induction order as [|s order IH]; intros c; [reflexivity|]. cbn [fold_left].
        rewrite IH by (intros; apply U'; right; assumption). unfold put_rows.
        assert (N : index_of i (D s) = None) by (apply index_of_none, U'; left; reflexivity).
        rewrite N. reflexivity. }
      rewrite G. unfold put_rows. rewrite Hq. reflexivity.
  Qed.

  Lemma matrix_cell_element (a : list (list V)) i j : matrix_cell a i j = element a i j.
  Proof.
    unfold matrix_cell, element. destruct (nth_error a i) as [row|] eqn:E.
    - rewrite (nth_error_nth a i [] E). reflexivity.
    - rewrite nth_overflow by (apply nth_error_None; assumption). destruct j; reflexivity.
  Qed.

  Lemma total_rows_ext (f : Z -> list (list V)) g l : (forall t, In t l -> List.length (f t) = g t) ->
    total_rows l f = fold_right (fun t n => g t + n) 0 l.
  Proof.
    induction l as [|t l IH]; intros H; [reflexivity|]. cbn [total_rows fold_right].
    rewrite (H t) by (left; reflexivity). f_equal. apply IH. intros; apply H; right; assumption.
  Qed.

  Lemma flat_map_length {A} (h : Z -> list A) l : List.length (flat_map h l) = fold_right (fun t n => List.length (h t) + n) 0 l.
  Proof. induction l as [|t l IH]; simpl; [reflexivity|]. rewrite app_length, IH. reflexivity. Qed.

  Lemma mask_position u q : NoDup u -> q < List.length u -> mask_positions u (nth q u 0%Z) = [q].
  Proof.
    intros ND Hq. unfold mask_positions.
    assert (E : seq 0 (List.length u) = seq 0 q ++ q :: seq (S q) (List.length u - S q)).
    { replace (List.length u) with (q + S (List.length u - S q)) at 1 by lia. rewrite seq_app. reflexivity. }
    rewrite E, filter_app. cbn [filter]. rewrite Z.eqb_refl.
    rewrite !filter_none; [reflexivity| |]; intros x Hx; apply in_seq in Hx; apply Z.eqb_neq; intros C;
      apply (proj1 (NoDup_nth u 0%Z) ND) in C; lia.
  Qed.

  Lemma sorted_distinct_nodup ids u : sorted_distinct ids u -> NoDup u.
  Proof.
    intros [HS _]. induction HS as [|t u HS IH HF]; constructor; [|assumption].
    rewrite Forall_forall in HF. intros H. specialize (HF t H). lia.
  Qed.

  Lemma ss_lt_unique (l l' : list Z) : StronglySorted Z.lt l -> StronglySorted Z.lt l' ->
    (forall t, In t l <-> In t l') -> l = l'.
  Proof.
    revert l'. induction l as [|a l IH]; intros l' H H' E.
    - destruct l' as [|b l']; [reflexivity|]. exfalso. apply (E b). left; reflexivity.
    - destruct l' as [|b l']; [exfalso; apply (E a); left; reflexivity|].
      inversion H as [|? ? HS HF]; subst. inversion H' as [|? ? HS' HF']; subst. rewrite Forall_forall in HF, HF'.
      assert (a = b).
      { destruct (proj1 (E a) (or_introl eq_refl)) as [|Ha]; [congruence|].
        destruct (proj2 (E b) (or_introl eq_refl)) as [|Hb]; [congruence|].
        specialize (HF b Hb). specialize (HF' a Ha). lia. }
      subst b. f_equal. apply IH; try assumption. intros t. split; intros Ht.
      + destruct (proj1 (E t) (or_intror Ht)) as [<-|]; [|assumption]. specialize (HF a Ht). lia.
      + destruct (proj2 (E t) (or_intror Ht)) as [<-|]; [|assumption]. specialize (HF' a Ht). lia.
  Qed.

  Lemma all_single_sorted ids u : sorted_distinct ids u -> List.length ids = List.length u ->
    StronglySorted Z.le ids -> ids = u.
  Proof.
    intros [HS HI] L SL. assert (ND := sorted_distinct_nodup ids u (conj HS HI)).
    assert (NI : NoDup ids) by (apply (NoDup_incl_NoDup (l := u)); [assumption|lia|intros t; apply HI]).
    apply ss_lt_unique; [|assumption|intros t; split; apply HI].
    clear -SL NI. induction SL as [|t l HS IH HF]; constructor; inversion NI; subst; [auto|].
    rewrite Forall_forall in *. intros x Hx. specialize (HF x Hx). assert (t <> x) by congruence. lia.
  Qed.

  Section Stacked.
    Variables (ids : list Z) (p : list nat) (u order : list Z) (f : Z -> list (list V)).
    Hypothesis HP : is_stable_argsort ids p.
    Hypothesis HU : sorted_distinct ids u.
    Hypothesis HO : Permutation order u.

    Lemma order_in t : In t order <-> In t ids.
    Proof.
      split; intros H.
      - apply HU. eapply Permutation_in; eassumption.
      - apply (Permutation_in _ (Permutation_sym HO)). apply HU. assumption.
    Qed.

    Lemma masks_disjoint i t t' : In i (mask_positions u t) -> In i (mask_positions u t') -> t' = t.
    Proof.
      unfold mask_positions. rewrite !filter_In, !Z.eqb_eq. intros [_ A] [_ B]. congruence.
    Qed.

    Lemma combine_markets : (forall t, In t ids -> List.length (f t) = 1) ->
      forall q j, q < List.length u ->
      combine_arrays (List.length ids) (market_indices ids p) u order f q j = element (f (nth q u 0%Z)) 0 j.
    Proof.
      intros H1 q j Hq. unfold combine_arrays, combine_one.
      assert (T : total_rows u f = List.length u).
      { rewrite (total_rows_ext f (fun _ => 1)) by (intros t Ht; apply H1, HU, Ht).
        clear. induction u as [|t u' IH]; simpl; [reflexivity|]. f_equal; exact IH. }
      rewrite T, Nat.eqb_refl.
      assert (HN : In (nth q u 0%Z) u) by (apply nth_In; assumption).
      rewrite (put_fold (mask_positions u) f (nth q u 0%Z) q 0 j).
      - rewrite matrix_cell_element. destruct (element _ _ _); reflexivity.
      - apply order_in, HU, HN.
      - rewrite mask_position; [simpl; rewrite Nat.eqb_refl; reflexivity| |assumption].
        eapply sorted_distinct_nodup; exact HU.
      - intros t' _ Hi. eapply masks_disjoint; [|exact Hi].
        rewrite mask_position; [left; reflexivity| |assumption]. eapply sorted_distinct_nodup; exact HU.
    Qed.

    Lemma combine_products :
      (forall t, In t ids -> List.length (f t) = List.length (rows_of ids t)) ->
      (List.length ids <> List.length u \/ StronglySorted Z.le ids) ->
      forall i j, i < List.length ids ->
      combine_arrays (List.length ids) (market_indices ids p) u order f i j
      = element (f (nth i ids 0%Z)) (rank ids i) j.
    Proof.
      intros HL G i j Hi.
      assert (HN : In (nth i ids 0%Z) ids) by (apply nth_In; assumption).
      assert (T : total_rows u f = List.length ids).
      { rewrite (total_rows_ext f (fun t => List.length (rows_of ids t))) by (intros t Ht; apply HL, HU, Ht).
        rewrite <- flat_map_length. rewrite (Permutation_length (rows_partition ids u HU)). apply seq_length. }
      destruct (Nat.eq_dec (List.length ids) (List.length u)) as [EQ|NE].
      - destruct G as [G|G]; [contradiction|].
        assert (E := all_single_sorted ids u HU EQ G).
        assert (ND : NoDup ids) by (rewrite E; eapply sorted_distinct_nodup; exact HU).
        assert (R : rank ids i = 0).
        { unfold rank. apply count_occ_not_In. intros H.
          apply (In_nth _ _ 0%Z) in H. destruct H as [k [Hk Ek]]. rewrite firstn_length in Hk.
          assert (nth k (firstn i ids) 0%Z = nth k ids 0%Z).
          { rewrite <- (firstn_skipn i ids) at 2. rewrite app_nth1 by (rewrite firstn_length; assumption). reflexivity. }
          rewrite H in Ek. apply (proj1 (NoDup_nth ids 0%Z) ND) in Ek; lia. }
        rewrite R. rewrite E at 3. apply combine_markets.
        + intros t Ht. rewrite (HL t Ht). unfold rows_of. rewrite count_filter by lia. rewrite firstn_all.
          apply (NoDup_count_occ' Z.eq_dec); assumption.
        + lia.
      - unfold combine_arrays, combine_one. rewrite T.
        destruct (Nat.eqb_spec (List.length ids) (List.length u)); [contradiction|].
        rewrite Nat.eqb_refl.
        rewrite (put_fold (market_indices ids p) f (nth i ids 0%Z) i (rank ids i) j).
        + rewrite matrix_cell_element. destruct (element _ _ _); reflexivity.
        + apply order_in; assumption.
        + rewrite market_indices_rows by assumption. apply index_of_rows. assumption.
        + intros t' Ht' Hi'. apply order_in in Ht'. rewrite market_indices_rows in Hi' by assumption.
          apply rows_of_in in Hi'. symmetry. apply Hi'.
    Qed.
  End Stacked.

  (** Arrival order never matters. *)
  Lemma combine_order N (D : Z -> list nat) market_ids order order' (f : Z -> list (list V)) :
    NoDup market_ids -> Permutation order market_ids -> Permutation order' market_ids ->
    (forall t t' i, In t market_ids -> In t' market_ids -> In i (D t) -> In i (D t') -> t = t') ->
    (List.length market_ids > 1 -> total_rows market_ids f = List.length market_ids \/ total_rows market_ids f = N) ->
    forall i j, combine_arrays N D market_ids order f i j = combine_arrays N D market_ids order' f i j.
  Proof.
    intros ND P P' DI G i j.
    assert (Gen : forall DD : Z -> list nat,
      (forall t t' i, In t market_ids -> In t' market_ids -> In i (DD t) -> In i (DD t') -> t = t') ->
      fold_left (fun c t => put_rows c (DD t) (f t)) order (fun _ _ => None) i j
      = fold_left (fun c t => put_rows c (DD t) (f t)) order' (fun _ _ => None) i j).
    { intros DD HD.
      assert (None_case : forall o, (forall t, In t o -> ~ In i (DD t)) -> forall c : cells,
        fold_left (fun c t => put_rows c (DD t) (f t)) o c i j = c i j).
      { intros o. induction o as [|s o IH]; intros U c; [reflexivity|]. cbn [fold_left].
        rewrite IH by (intros; apply U; right; assumption). unfold put_rows.
        assert (X : index_of i (DD s) = None) by (apply index_of_none, U; left; reflexivity).
        rewrite X. reflexivity. }
      destruct (existsb (fun t => existsb (Nat.eqb i) (DD t)) market_ids) eqn:E.
      - apply existsb_exists in E. destruct E as [t [Ht E]]. apply existsb_exists in E. destruct E as [i' [Hi E]].
        apply Nat.eqb_eq in E. subst i'.
        destruct (index_of i (DD t)) as [q|] eqn:Eq; [|apply index_of_none in Eq; contradiction].
        assert (PF : forall o, Permutation o market_ids ->
          fold_left (fun c t => put_rows c (DD t) (f t)) o (fun _ _ => None) i j
          = match matrix_cell (f t) q j with Some v => Some v | None => None end).
        { intros o Po. apply put_fold; [apply (Permutation_in _ (Permutation_sym Po)); assumption|assumption|].
          intros t' H' Hi'. apply (HD t' t i); try assumption. eapply Permutation_in; eassumption. }
        rewrite (PF order P), (PF order' P'). reflexivity.
      - assert (U : forall t, In t market_ids -> ~ In i (DD t)).
        { intros t Ht Hi. apply Bool.not_true_iff_false in E. apply E. apply existsb_exists. exists t. split; [assumption|].
          apply existsb_exists. exists i. split; [assumption|apply Nat.eqb_refl]. }
        rewrite !None_case; [reflexivity| |]; intros t Ht; apply U; [apply (Permutation_in _ P')|apply (Permutation_in _ P)]; assumption. }
    unfold combine_arrays, combine_one.
    destruct (Nat.eqb_spec (total_rows market_ids f) (List.length market_ids)) as [E1|E1].
    - apply (Gen (mask_positions market_ids)). intros t t' k _ _ A B. symmetry. unfold mask_positions in *.
      apply filter_In in A. apply filter_In in B. rewrite Z.eqb_eq in A, B. destruct A, B. congruence.
    - destruct (Nat.eqb_spec (total_rows market_ids f) N) as [E2|E2].
      + apply (Gen D). assumption.
      + destruct market_ids as [|t [|t2 l]].
        * apply Permutation_sym, Permutation_nil in P. apply Permutation_sym, Permutation_nil in P'. subst. reflexivity.
        * apply Permutation_sym, Permutation_length_1_inv in P. apply Permutation_sym, Permutation_length_1_inv in P'.
          subst. reflexivity.
        * destruct G; [simpl; lia|contradiction|contradiction].
  Qed.

  (** One market: its matrix as it is. *)
  Lemma combine_single ids p t (f : Z -> list (list V)) : is_stable_argsort ids p -> In t ids ->
    (List.length (f t) = 1 \/ List.length (f t) = List.length (rows_of ids t)) ->
    forall i j, i < List.length (f t) ->
    combine_arrays (List.length ids) (market_indices ids p) [t] [t] f i j = element (f t) i j.
  Proof.
    intros HP Ht HL i j Hi. unfold combine_arrays, combine_one. cbn [fold_left total_rows fold_right List.length].
    rewrite Nat.add_0_r. destruct (Nat.eqb_spec (List.length (f t)) 1) as [E1|E1].
    - assert (i = 0) by lia. subst i. unfold put_rows, mask_positions. simpl. rewrite Z.eqb_refl. simpl.
      rewrite matrix_cell_element. destruct (element (f t) 0 j); reflexivity.
    - destruct HL as [HL|HL]; [contradiction|].
      destruct (Nat.eqb_spec (List.length (f t)) (List.length ids)) as [E2|E2].
      + assert (R : rows_of ids t = seq 0 (List.length ids)).
        { unfold rows_of in *. assert (E : List.length (filter (fun j => Z.eqb (nth j ids 0%Z) t) (seq 0 (List.length ids))) = List.length (seq 0 (List.length ids)))
            by (rewrite seq_length; lia).
          clear -E. induction (seq 0 (List.length ids)) as [|x l IH]; [reflexivity|]. simpl in *.
          destruct (Z.eqb (nth x ids 0%Z) t); [f_equal; apply IH; simpl in E; lia|].
          exfalso. pose proof (filter_length_le (fun j => Z.eqb (nth j ids 0%Z) t) l). lia. }
        unfold put_rows. rewrite market_indices_rows, R by assumption.
        assert (EI : index_of i (seq 0 (List.length ids)) = Some i).
        { destruct (index_of i (seq 0 (List.length ids))) as [q|] eqn:E.
          - apply index_of_lt in E. destruct E as [A B]. rewrite seq_length in A. rewrite seq_nth in B by assumption. f_equal. lia.
          - apply index_of_none in E. exfalso. apply E. apply in_seq. lia. }
        rewrite EI, matrix_cell_element. destruct (element (f t) i j); reflexivity.
      + apply matrix_cell_element.
  Qed.
End CombineProofs.

(* ---------- importance sampling ---------- *)
Local Open Scope R_scope.

Section ImportanceProofs.
  Context {G : Type}.
  Variable uniform : G -> nat -> (nat -> R) * G.
  Variable choice : G -> list nat -> nat -> option (list nat) * G.
  (** Uniform draws are in [0, 1); [choice] without replacement from distinct elements returns distinct
      ones of them, and raises exactly when there are too few. *)
  Definition uniform_ok : Prop := forall g n i, 0 <= fst (uniform g n) i < 1.
  Definition choice_ok : Prop := forall g l n, NoDup l ->
    match fst (choice g l n) with
    | Some s => NoDup s /\ List.length s = n /\ incl s l
    | None => (List.length l < n)%nat
    end.

  Lemma market_weights_spec g draws ar count share prob : uniform_ok -> choice_ok ->
    (0 < draws)%nat -> 1 <= ar -> 0 < share -> (forall i, (i < count)%nat -> 0 <= prob i) ->
    match fst (market_weights uniform choice g draws ar count share prob) with
    | Some w =>
        exists sampled, NoDup sampled /\ List.length sampled = draws /\
          (forall i, In i sampled -> (i < count)%nat /\ 0 < prob i /\ w i = share / (prob i * INR draws) /\ 0 < w i) /\
          (forall i, ~ In i sampled -> w i = 0)
    | None => (List.length (filter (fun i => if Rlt_dec (fst (uniform g count) i) (prob i / ar) then true else false) (seq 0 count)) < draws)%nat
    end.
  Proof.
    intros HU HC Hd Har Hs Hp. unfold market_weights.
    assert (HU' := HU g count). destruct (uniform g count) as [cut g1]. cbn [fst] in HU' |- *.
    set (acc := filter _ (seq 0 count)). assert (HC' := HC g1 acc draws (NoDup_filter _ (seq_NoDup _ _))).
    destruct (choice g1 acc draws) as [[sampled|] g2]; cbn [fst] in HC' |- *; [|exact HC'].
    destruct HC' as [ND [L I]]. exists sampled. split; [assumption|]. split; [assumption|].
    assert (HD : 0 < INR draws) by (apply lt_0_INR; assumption).
    split.
    - intros i Hi. assert (Ha := I i Hi). unfold acc in Ha. apply filter_In in Ha. destruct Ha as [Hr Hlt].
      apply in_seq in Hr. destruct (Rlt_dec (cut i) (prob i / ar)) as [Hlt'|]; [|discriminate].
      assert (Pp : 0 < prob i).
      { assert (0 < prob i / ar) by (specialize (HU' i); lra).
        assert (prob i = prob i / ar * ar) by (field; lra). assert (0 < prob i / ar * ar) by (apply Rmult_lt_0_compat; lra). lra. }
      assert (E : existsb (Nat.eqb i) sampled = true) by (apply existsb_exists; exists i; split; [assumption|apply Nat.eqb_refl]).
      rewrite E. split; [lia|]. split; [assumption|]. split; [field; split; lra|].
      apply Rdiv_lt_0_compat; [apply Rdiv_lt_0_compat|]; lra.
    - intros i Hi. destruct (existsb (Nat.eqb i) sampled) eqn:E; [|reflexivity].
      apply existsb_exists in E. destruct E as [x [Hx Ex]]. apply Nat.eqb_eq in Ex. subst. contradiction.
  Qed.

  (** Every market in the order gets such weights, or the whole computation raises. *)
  Lemma importance_weights_spec draws ar count share prob : uniform_ok -> choice_ok ->
    (0 < draws)%nat -> 1 <= ar -> (forall t, 0 < share t) -> (forall t i, (i < count t)%nat -> 0 <= prob t i) ->
    forall order g d, importance_weights uniform choice g draws ar count share prob order = Some d ->
    forall t, In t order -> exists w, d t = Some w /\
      exists sampled, NoDup sampled /\ List.length sampled = draws /\
        (forall i, In i sampled -> (i < count t)%nat /\ 0 < prob t i /\ w i = share t / (prob t i * INR draws) /\ 0 < w i) /\
        (forall i, ~ In i sampled -> w i = 0).
  Proof.
    intros HU HC Hd Har Hs Hp. induction order as [|s order IH]; intros g d H t Ht; [destruct Ht|].
    cbn [importance_weights] in H.
    assert (MW := market_weights_spec g draws ar (count s) (share s) (prob s) HU HC Hd Har (Hs s) (Hp s)).
    destruct (market_weights uniform choice g draws ar (count s) (share s) (prob s)) as [[w|] g']; [|discriminate].
    cbn [fst] in MW.
    destruct (importance_weights uniform choice g' draws ar count share prob order) as [d'|] eqn:E; [|discriminate].
    injection H as <-. cbv beta.
    destruct (d' t) as [w'|] eqn:Ed.
    - destruct (in_dec Z.eq_dec t order) as [Hin|Hin].
      + destruct (IH _ _ E t Hin) as [w2 [E2 S2]]. exists w2. split; [congruence|assumption].
      + exfalso. clear -E Ed Hin. revert g' d' E Ed. induction order as [|s order IH]; intros g' d' E Ed.
        * cbn in E. injection E as <-. discriminate.
        * cbn [importance_weights] in E.
          destruct (market_weights uniform choice g' draws ar (count s) (share s) (prob s)) as [[w0|] g2]; [|discriminate].
          destruct (importance_weights uniform choice g2 draws ar count share prob order) as [d2|] eqn:E2; [|discriminate].
          injection E as <-. cbv beta in Ed. simpl in Hin.
          destruct (d2 t) eqn:Ed2; [injection Ed as ->; exact (IH ltac:(tauto) _ _ E2 Ed2)|].
          destruct (Z.eqb_spec t s); [apply Hin; left; congruence|discriminate].
    - destruct (Z.eqb_spec t s) as [->|N]; [exists w; auto|].
      destruct Ht as [->|Hin]; [contradiction|].
      destruct (IH _ _ E t Hin) as [w2 [E2 _]]. congruence.
  Qed.
End ImportanceProofs.

(* ---------- effective draws ---------- *)

Definition dot (l : list (R * R)) : R := fold_right (fun p acc => fst p * snd p + acc) 0 l.
Definition square_sum (f : R * R -> R) (l : list (R * R)) : R := fold_right (fun p acc => f p ^ 2 + acc) 0 l.

Lemma square_sum_nonneg f l : 0 <= square_sum f l.
Proof. induction l as [|p l IH]; simpl; [lra|]. assert (0 <= f p * (f p * 1)) by nra. lra. Qed.

Lemma cauchy l : dot l ^ 2 <= square_sum fst l * square_sum snd l.
Proof.
  induction l as [|[a b] l IH]; simpl dot; simpl square_sum; [lra|]. cbn [fst snd].
  set (S := dot l) in *. set (A := square_sum fst l) in *. set (B := square_sum snd l) in *.
  assert (HA : 0 <= A) by apply square_sum_nonneg. assert (HB : 0 <= B) by apply square_sum_nonneg.
  assert (K : 2 * S * (a * b) <= A * b ^ 2 + B * a ^ 2).
  { apply Rsqr_incr_0_var; [|assert (0 <= b ^ 2) by apply pow2_ge_0; assert (0 <= a ^ 2) by apply pow2_ge_0;
      assert (0 <= A * b ^ 2) by (apply Rmult_le_pos; assumption); assert (0 <= B * a ^ 2) by (apply Rmult_le_pos; assumption); lra].
    unfold Rsqr. assert (0 <= (A * b ^ 2 - B * a ^ 2) ^ 2) by apply pow2_ge_0.
    assert (0 <= (a * b) ^ 2) by apply pow2_ge_0.
    assert ((a * b) ^ 2 * S ^ 2 <= (a * b) ^ 2 * (A * B)) by (apply Rmult_le_compat_l; assumption).
    nra. }
  nra.
Qed.

Lemma power_sum_dot i j w :
  power_sum (i + j) w = dot (map (fun x => (x ^ i, x ^ j)) w).
Proof. induction w as [|x w IH]; [reflexivity|]. simpl. rewrite <- IH, pow_add. reflexivity. Qed.
Lemma power_sum_sq_fst i j w : square_sum fst (map (fun x => (x ^ i, x ^ j)) w) = power_sum (2 * i) w.
Proof. induction w as [|x w IH]; [reflexivity|]. simpl power_sum. simpl square_sum. rewrite IH. f_equal. cbn [fst].
  replace (x ^ i * (x ^ i * 1)) with ((x ^ i) ^ 2) by ring. rewrite <- pow_mult. f_equal. lia. Qed.
Lemma power_sum_sq_snd i j w : square_sum snd (map (fun x => (x ^ i, x ^ j)) w) = power_sum (2 * j) w.
Proof. induction w as [|x w IH]; [reflexivity|]. simpl power_sum. simpl square_sum. rewrite IH. f_equal. cbn [snd].
  replace (x ^ j * (x ^ j * 1)) with ((x ^ j) ^ 2) by ring. rewrite <- pow_mult. f_equal. lia. Qed.

Lemma power_sum_cauchy i j w : power_sum (i + j) w ^ 2 <= power_sum (2 * i) w * power_sum (2 * j) w.
Proof.
  rewrite (power_sum_dot i j), <- (power_sum_sq_fst i j w), <- (power_sum_sq_snd i j w). apply cauchy.
Qed.

Lemma power_sum_0 w : power_sum 0 w = INR (List.length w).
Proof. induction w as [|x w IH]; [reflexivity|]. change (power_sum 0 (x :: w)) with (1 + power_sum 0 w).
  rewrite IH. cbn [List.length]. rewrite S_INR. ring. Qed.

Lemma power_sum_pos k w : w <> [] -> (forall x, In x w -> 0 < x) -> 0 < power_sum k w.
Proof.
  intros N P. destruct w as [|x w]; [contradiction|]. clear N. revert x P. induction w as [|y w IH]; intros x P.
  - simpl. assert (0 < x ^ k) by (apply pow_lt, P; left; reflexivity). lra.
  - change (power_sum k (x :: y :: w)) with (x ^ k + power_sum k (y :: w)).
    assert (0 < x ^ k) by (apply pow_lt, P; left; reflexivity).
    assert (0 < power_sum k (y :: w)) by (apply IH; intros; apply P; right; assumption). lra.
Qed.
Lemma power_sum_nonneg k w : (forall x, In x w -> 0 < x) -> 0 <= power_sum k w.
Proof.
  intros P. destruct w as [|x w]; [simpl; lra|]. left. apply power_sum_pos; [discriminate|assumption].
Qed.

(** Sums of products are at most products of sums. *)
Lemma power_sum_sub i j w : (forall x, In x w -> 0 < x) -> power_sum (i + j) w <= power_sum i w * power_sum j w.
Proof.
  induction w as [|x w IH]; intros P; [simpl; lra|].
  change (power_sum (i + j) (x :: w)) with (x ^ (i + j) + power_sum (i + j) w).
  change (power_sum i (x :: w)) with (x ^ i + power_sum i w). change (power_sum j (x :: w)) with (x ^ j + power_sum j w).
  assert (P' : forall y, In y w -> 0 < y) by (intros; apply P; right; assumption). specialize (IH P').
  assert (A := power_sum_nonneg i w P'). assert (B := power_sum_nonneg j w P').
  assert (0 < x ^ i) by (apply pow_lt, P; left; reflexivity). assert (0 < x ^ j) by (apply pow_lt, P; left; reflexivity).
  rewrite pow_add. nra.
Qed.

Lemma div_ge_1 a b : 0 < b -> b <= a -> 1 <= a / b.
Proof. intros. apply (Rmult_le_reg_r b); [assumption|]. unfold Rdiv. rewrite Rmult_assoc, Rinv_l by lra. lra. Qed.
Lemma div_le a b c : 0 < b -> a <= c * b -> a / b <= c.
Proof. intros. apply (Rmult_le_reg_r b); [assumption|]. unfold Rdiv. rewrite Rmult_assoc, Rinv_l by lra. lra. Qed.

Lemma effective_bounds w : w <> [] -> (forall x, In x w -> 0 < x) ->
  1 <= effective_draws w <= INR (List.length w) /\
  1 <= effective_draws_for_variance w <= INR (List.length w) /\
  1 <= effective_draws_for_skewness w <= INR (List.length w).
Proof.
  intros N P. unfold effective_draws, effective_draws_for_variance, effective_draws_for_skewness, weight_sum.
  assert (P1 := power_sum_pos 1 w N P). assert (P2 := power_sum_pos 2 w N P).
  assert (P3 := power_sum_pos 3 w N P). assert (P4 := power_sum_pos 4 w N P).
  assert (C01 := power_sum_cauchy 0 1 w). assert (C02 := power_sum_cauchy 0 2 w).
  assert (C12 := power_sum_cauchy 1 2 w).
  assert (S11 := power_sum_sub 1 1 w P). assert (S22 := power_sum_sub 2 2 w P).
  assert (C13 : power_sum 2 w ^ 2 <= power_sum 1 w * power_sum 3 w).
  { (* weights w^(1/2) and w^(3/2) *)
    assert (D : power_sum 2 w ^ 2 <= square_sum fst (map (fun x => (sqrt x, sqrt x * x)) w)
        * square_sum snd (map (fun x => (sqrt x, sqrt x * x)) w)).
    { assert (E : power_sum 2 w = dot (map (fun x => (sqrt x, sqrt x * x)) w)).
      { clear -P. induction w as [|x w IH]; [reflexivity|]. simpl. rewrite IH by (intros; apply P; right; assumption).
        f_equal. assert (S := sqrt_sqrt x ltac:(left; apply P; left; reflexivity)).
        replace (sqrt x * (sqrt x * x)) with ((sqrt x * sqrt x) * x) by ring. rewrite S. ring. }
      rewrite E. apply cauchy. }
    assert (E1 : square_sum fst (map (fun x => (sqrt x, sqrt x * x)) w) = power_sum 1 w).
    { clear -P. induction w as [|x w IH]; [reflexivity|]. simpl. rewrite IH by (intros; apply P; right; assumption).
      assert (S := sqrt_sqrt x ltac:(left; apply P; left; reflexivity)). nra. }
    assert (E2 : square_sum snd (map (fun x => (sqrt x, sqrt x * x)) w) = power_sum 3 w).
    { clear -P. induction w as [|x w IH]; [reflexivity|]. simpl. rewrite IH by (intros; apply P; right; assumption).
      assert (S := sqrt_sqrt x ltac:(left; apply P; left; reflexivity)).
      replace (sqrt x * x * (sqrt x * x * 1)) with ((sqrt x * sqrt x) * (x * x)) by ring. rewrite S. ring. }
    rewrite E1, E2 in D. exact D. }
  rewrite power_sum_0 in *. cbn [Nat.add Nat.mul] in *.
  set (n := INR (List.length w)) in *.
  assert (Hn : 0 <= n) by apply pos_INR.
  set (s1 := power_sum 1 w) in *. set (s2 := power_sum 2 w) in *. set (s3 := power_sum 3 w) in *. set (s4 := power_sum 4 w) in *.
  split; [|split]; split.
  - apply div_ge_1; [assumption|]. lra.
  - apply div_le; [assumption|]. lra.
  - apply div_ge_1; [assumption|]. lra.
  - apply div_le; [assumption|]. lra.
  - apply div_ge_1; [apply pow_lt; assumption|].
    apply Rle_trans with (s2 * s4); [lra|]. apply Rle_trans with (s2 * (s2 * s2)); [apply Rmult_le_compat_l; lra|]. lra.
  - apply div_le; [apply pow_lt; assumption|].
    apply (Rmult_le_reg_r s2); [assumption|].
    apply Rle_trans with ((s1 * s3) ^ 2).
    + replace (s2 ^ 3 * s2) with ((s2 ^ 2) ^ 2) by ring. apply pow_incr. split; [apply pow2_ge_0|assumption].
    + replace ((s1 * s3) ^ 2) with (s1 ^ 2 * s3 ^ 2) by ring.
      apply Rle_trans with ((n * s2) * s3 ^ 2); [apply Rmult_le_compat_r; [apply pow2_ge_0|lra]|]. lra.
Qed.

Lemma nodup_firstn {A} n : forall l : list A, NoDup l -> NoDup (firstn n l).
Proof.
  induction n as [|n IH]; intros l ND; [constructor|]. destruct l as [|x l]; [constructor|].
  inversion ND as [|? ? Hx ND']; subst. cbn [firstn]. constructor; [|apply IH; assumption].
  intro H. apply Hx. rewrite <- (firstn_skipn n l). apply in_or_app. left. exact H.
Qed.
