(** Lemmas about arguments and results of post-estimation methods. *)
From Coq Require Import Reals Lra Lia ZArith List Bool Arith Permutation Sorted.
From Verif Require Import Base FltModel BasicsModel BasicsSpec BasicsProofs SchedModel SchedSpec SchedProofs.
From Verif Require ConstrModel ConstrProofs.
From Verif Require Import PostModel PostSpec.
Import ListNotations.
Local Open Scope nat_scope.

(* ---------- sizes ---------- *)

Lemma rows_size ids t : List.length (rows_of ids t) = size_of ids t.
Proof. unfold rows_of, size_of. rewrite count_filter by lia. rewrite firstn_all. reflexivity. Qed.

Lemma rows_nodup ids t : NoDup (rows_of ids t).
Proof. unfold rows_of. apply NoDup_filter, seq_NoDup. Qed.

Lemma index_of_nth l q : NoDup l -> q < List.length l -> index_of (nth q l 0) l = Some q.
Proof.
  revert q. induction l as [|a l IH]; intros q ND H; [simpl in H; lia|]. inversion ND; subst.
  destruct q as [|q]; cbn [nth index_of].
  - rewrite Nat.eqb_refl. reflexivity.
  - simpl in H. destruct (Nat.eqb_spec (nth q l 0) a) as [E|E].
    + exfalso. apply H2. rewrite <- E. apply nth_In. lia.
    + rewrite IH by (assumption || lia). reflexivity.
Qed.

Lemma rows_row ids t q : q < size_of ids t ->
  nth q (rows_of ids t) 0 < List.length ids /\ nth (nth q (rows_of ids t) 0) ids 0%Z = t /\
  rank ids (nth q (rows_of ids t) 0) = q.
Proof.
  intros H. rewrite <- rows_size in H.
  pose proof (nth_In (rows_of ids t) 0 H) as I. apply rows_of_in in I. destruct I as [A B].
  split; [exact A|]. split; [exact B|].
  pose proof (index_of_rows ids _ A) as E. rewrite B in E.
  rewrite index_of_nth in E; [|apply rows_nodup|assumption]. injection E as E. congruence.
Qed.

Lemma rank_size ids i : i < List.length ids -> rank ids i < size_of ids (nth i ids 0%Z).
Proof.
  intros H. pose proof (index_of_rows ids i H) as E. apply index_of_lt in E. rewrite rows_size in E. tauto.
Qed.

Lemma size_pos ids t : In t ids -> 0 < size_of ids t.
Proof. intros H. unfold size_of. apply (count_occ_In Z.eq_dec) in H. lia. Qed.

Lemma sum_sizes ids sel : forall u, NoDup u -> (forall t, In t u <-> In t ids /\ In t sel) ->
  list_sum_of (map (size_of ids) u) = products_in ids sel.
Proof.
  unfold products_in, size_of, list_sum_of.
  assert (G : forall ids u, NoDup u -> (forall t, In t ids -> In t sel -> In t u) -> (forall t, In t u -> In t sel) ->
    fold_right Nat.add 0 (map (count_occ Z.eq_dec ids) u)
    = List.length (filter (fun s => if in_dec Z.eq_dec s sel then true else false) ids)).
  { clear ids. induction ids as [|x ids IH]; intros u ND H1 H2.
    - clear. induction u as [|t u IH]; [reflexivity|]. exact IH.
    - cbn [filter].
      assert (S : fold_right Nat.add 0 (map (count_occ Z.eq_dec (x :: ids)) u)
        = fold_right Nat.add 0 (map (count_occ Z.eq_dec ids) u) + (if in_dec Z.eq_dec x u then 1 else 0)).
      { clear -ND. induction u as [|t u IHu]; [reflexivity|]. inversion ND; subst. specialize (IHu H2).
        cbn [map fold_right]. rewrite IHu. cbn [count_occ].
        destruct (Z.eq_dec x t) as [->|N].
        - destruct (in_dec Z.eq_dec t (t :: u)) as [_|C]; [|exfalso; apply C; left; reflexivity].
          destruct (in_dec Z.eq_dec t u); [contradiction|]. lia.
        - destruct (in_dec Z.eq_dec x (t :: u)) as [[C|C]|C], (in_dec Z.eq_dec x u) as [D|D]; try lia; try congruence.
          exfalso. apply C. right. assumption. }
      rewrite S. rewrite (IH u ND); [|intros t Ht; apply H1; right; assumption|assumption].
      destruct (in_dec Z.eq_dec x u) as [I|I], (in_dec Z.eq_dec x sel) as [J|J]; cbn [List.length]; try lia.
      + exfalso. apply J. apply H2. assumption.
      + exfalso. apply I. apply H1; [left; reflexivity|assumption]. }
  intros u ND H. apply G; [assumption| |]; intros t Ht; [intros; apply H; auto|apply H; assumption].
Qed.

Lemma list_max_ge l x : In x l -> x <= list_max_of l.
Proof. induction l as [|a l IH]; simpl; [tauto|]. intros [->|H]; [lia|]. specialize (IH H). lia. Qed.

Lemma list_max_in l : l <> [] -> In (list_max_of l) l.
Proof.
  induction l as [|a l IH]; [congruence|]. intros _. destruct l as [|b l]; [left; simpl; lia|].
  specialize (IH ltac:(discriminate)).
  change (list_max_of (a :: b :: l)) with (Nat.max a (list_max_of (b :: l))).
  destruct (Nat.max_spec a (list_max_of (b :: l))) as [[_ ->]|[_ ->]]; [right; exact IH|left; reflexivity].
Qed.

Lemma largest_unique ids sel m n : largest ids sel m -> largest ids sel n -> m = n.
Proof. intros [A [t [I E]]] [B [s [J F]]]. pose proof (A s J). pose proof (B t I). lia. Qed.

Lemma max_largest ids sel u : sel <> [] -> (forall t, In t sel -> In t ids) ->
  (forall t, In t u <-> In t ids /\ In t sel) -> largest ids sel (list_max_of (map (size_of ids) u)).
Proof.
  intros N H U. split.
  - intros t Ht. apply list_max_ge. apply in_map. apply U. auto.
  - assert (NE : map (size_of ids) u <> []).
    { destruct sel as [|t sel]; [congruence|]. intros E. apply map_eq_nil in E.
      assert (I : In t u) by (apply U; split; [apply H|]; left; reflexivity). rewrite E in I. destruct I. }
    pose proof (list_max_in _ NE) as I. apply in_map_iff in I. destruct I as [t [E I]].
    exists t. split; [apply U in I; tauto|assumption].
Qed.

Lemma selected ids p sel : is_stable_argsort ids p ->
  exists u, selected_sizes (get_indices ids p) sel = map (size_of ids) u /\ NoDup u /\
    forall t, In t u <-> In t ids /\ In t sel.
Proof.
  intros H.
  pose proof (group_unique_spec ids p (stable_is_argsort _ _ H)) as U.
  exists (filter (fun t => existsb (Z.eqb t) sel) (group_unique ids p)). split; [|split].
  - unfold selected_sizes. rewrite (get_indices_spec ids p H). clear U.
    induction (group_unique ids p) as [|t u IH]; [reflexivity|]. cbn [map filter fst].
    destruct (existsb (Z.eqb t) sel); cbn [map snd]; rewrite ?rows_size, ?IH; reflexivity.
  - apply NoDup_filter. eapply sorted_distinct_nodup; exact U.
  - intros t. rewrite filter_In, existsb_exists. destruct U as [_ U]. rewrite U. split.
    + intros [A [s [I E]]]. apply Z.eqb_eq in E. subst. auto.
    + intros [A B]. split; [assumption|]. exists t. split; [assumption|apply Z.eqb_refl].
Qed.

(* ---------- shapes ---------- *)

Lemma coerce_matrices_shape {V} ids p sel (m m' : @stacked V) : is_stable_argsort ids p -> sel <> [] ->
  (forall t, In t sel -> In t ids) ->
  (coerce_matrices (get_indices ids p) sel m = Some m' <->
   m' = m /\ st_rows m = products_in ids sel /\ largest ids sel (st_columns m)).
Proof.
  intros H N I. destruct (selected ids p sel H) as (u & E & ND & U).
  unfold coerce_matrices. rewrite E, (sum_sizes ids sel u ND U).
  pose proof (max_largest ids sel u N I U) as L.
  destruct (Nat.eqb_spec (st_rows m) (products_in ids sel)) as [A|A]; cbn [andb].
  - destruct (Nat.eqb_spec (st_columns m) (list_max_of (map (size_of ids) u))) as [B|B].
    + split; [intros F; injection F as <-; rewrite B; auto|intros [-> _]; reflexivity].
    + split; [discriminate|]. intros (_ & _ & F). exfalso. apply B. eapply largest_unique; eassumption.
  - split; [discriminate|]. intros (_ & F & _). contradiction.
Qed.

Lemma coerce_column_shape {V} ids p sel (m m' : @stacked V) : is_stable_argsort ids p ->
  (coerce_column (get_indices ids p) sel m = Some m' <->
   m' = m /\ st_rows m = products_in ids sel /\ st_columns m = 1).
Proof.
  intros H. destruct (selected ids p sel H) as (u & E & ND & U).
  unfold coerce_column. rewrite E, (sum_sizes ids sel u ND U).
  destruct (Nat.eqb_spec (st_rows m) (products_in ids sel)) as [A|A]; cbn [andb].
  - destruct (Nat.eqb_spec (st_columns m) 1) as [B|B].
    + split; [intros F; injection F as <-; auto|intros [-> _]; reflexivity].
    + split; [discriminate|]. intros (_ & _ & F). contradiction.
  - split; [discriminate|]. intros (_ & F & _). contradiction.
Qed.

Lemma ownership_fold (g : Z -> nat) sel : forall rows columns,
  fold_left (fun '(rows, columns) t => (rows + g t, Nat.max columns (g t))) sel (rows, columns)
  = (rows + list_sum_of (map g sel), Nat.max columns (list_max_of (map g sel))).
Proof.
  induction sel as [|t sel IH]; intros rows columns; cbn [fold_left map].
  - cbn. f_equal; lia.
  - rewrite IH. cbn [list_sum_of list_max_of fold_right]. f_equal; [unfold list_sum_of; lia|].
    unfold list_max_of. rewrite Nat.max_assoc. reflexivity.
Qed.

Lemma coerce_ownership_shape {V} ids p sel (m m' : @stacked V) : is_stable_argsort ids p -> sel <> [] -> NoDup sel ->
  (forall t, In t sel -> In t ids) ->
  (coerce_ownership (market_indices ids p) sel m = Some m' <->
   m' = m /\ st_rows m = products_in ids sel /\ largest ids sel (st_columns m)).
Proof.
  intros H N ND I. unfold coerce_ownership.
  rewrite (ownership_fold (fun t => List.length (market_indices ids p t)) sel 0 0).
  assert (E : map (fun t => List.length (market_indices ids p t)) sel = map (size_of ids) sel).
  { apply map_ext_in. intros t Ht. rewrite market_indices_rows by auto. apply rows_size. }
  rewrite E. cbn [Nat.add Nat.max].
  assert (U : forall t, In t sel <-> In t ids /\ In t sel) by (intros t; split; [auto|tauto]).
  rewrite (sum_sizes ids sel sel ND U). pose proof (max_largest ids sel sel N I U) as L.
  destruct (Nat.eqb_spec (st_rows m) (products_in ids sel)) as [A|A]; cbn [andb].
  - destruct (Nat.eqb_spec (st_columns m) (list_max_of (map (size_of ids) sel))) as [B|B].
    + split; [intros F; injection F as <-; rewrite B; auto|intros [-> _]; reflexivity].
    + split; [discriminate|]. intros (_ & _ & F). exfalso. apply B. eapply largest_unique; eassumption.
  - split; [discriminate|]. intros (_ & F & _). contradiction.
Qed.

(* ---------- round trips ---------- *)

Definition guard (ids u : list Z) : Prop := List.length ids <> List.length u \/ StronglySorted Z.le ids.

Lemma one_market ids t : (forall s, In s ids -> s = t) -> rows_of ids t = seq 0 (List.length ids).
Proof.
  intros H. unfold rows_of.
  assert (G : forall l, (forall i, In i l -> i < List.length ids) -> filter (fun j => Z.eqb (nth j ids 0%Z) t) l = l).
  { intros l. induction l as [|i l IH]; intros Hl; [reflexivity|]. cbn [filter].
    rewrite (H (nth i ids 0%Z)) by (apply nth_In, Hl; left; reflexivity). rewrite Z.eqb_refl. f_equal.
    apply IH. intros k Hk. apply Hl. right. assumption. }
  apply G. intros i Hi. apply in_seq in Hi. lia.
Qed.

Section Arguments.
  Context {V : Type}.
  Variables (ids : list Z) (p : list nat) (u : list Z).
  Hypothesis HP : is_stable_argsort ids p.
  Hypothesis HU : sorted_distinct ids u.

  Lemma argument_row (m : @stacked V) t q j : In t ids -> q < size_of ids t ->
    st_cell (market_argument (market_indices ids p) u m t) q j = st_cell m (nth q (rows_of ids t) 0) j.
  Proof.
    intros Ht Hq. unfold market_argument. destruct (Nat.eqb_spec (List.length u) 1) as [E|E].
    - assert (S : forall s, In s ids -> s = t).
      { destruct u as [|a [|b l]]; simpl in E; try lia. intros s Hs.
        destruct HU as [_ HI]. apply HI in Hs. apply HI in Ht. destruct Hs as [<-|[]], Ht as [<-|[]]. reflexivity. }
      rewrite <- rows_size in Hq. rewrite (one_market ids t S) in *. rewrite seq_length in Hq.
      rewrite seq_nth by assumption. reflexivity.
    - cbn [st_cell]. rewrite market_indices_rows by assumption. reflexivity.
  Qed.

  Lemma argument_rows (m : @stacked V) t : In t ids -> st_rows m = List.length ids ->
    st_rows (market_argument (market_indices ids p) u m t) = size_of ids t /\
    st_columns (market_argument (market_indices ids p) u m t) = st_columns m.
  Proof.
    intros Ht Hm. unfold market_argument. destruct (Nat.eqb_spec (List.length u) 1) as [E|E].
    - assert (S : forall s, In s ids -> s = t).
      { destruct u as [|a [|b l]]; simpl in E; try lia. intros s Hs.
        destruct HU as [_ HI]. apply HI in Hs. apply HI in Ht. destruct Hs as [<-|[]], Ht as [<-|[]]. reflexivity. }
      split; [|reflexivity]. rewrite Hm, <- rows_size, (one_market ids t S), seq_length. reflexivity.
    - cbn [st_rows st_columns]. rewrite market_indices_rows by assumption. rewrite rows_size. auto.
  Qed.

End Arguments.

Section RoundTrip.
  Context {V : Type}.
  Variables (ids : list Z) (p : list nat) (u order : list Z) (f : Z -> list (list V)).
  Hypothesis HP : is_stable_argsort ids p.
  Hypothesis HU : sorted_distinct ids u.
  Hypothesis HO : Permutation order u.
  Hypothesis HF : forall t, In t ids -> List.length (f t) = size_of ids t.
  Hypothesis HG : guard ids u.

  Lemma round_trip t q j : In t ids -> q < size_of ids t ->
    st_cell (market_argument (market_indices ids p) u
      (combined (List.length ids) (market_indices ids p) u order f) t) q j = element (f t) q j.
  Proof.
    intros Ht Hq. rewrite (argument_row ids p u HP HU) by assumption. cbn [combined st_cell].
    destruct (rows_row ids t q Hq) as (A & B & C).
    rewrite (combine_products ids p u order f HP HU HO); [|intros s Hs; rewrite rows_size; auto|exact HG|exact A].
    rewrite B, C. reflexivity.
  Qed.

  Lemma combined_rows : st_rows (combined (List.length ids) (market_indices ids p) u order f) = List.length ids.
  Proof.
    cbn [combined st_rows].
    rewrite (total_rows_ext f (fun t => List.length (rows_of ids t))) by (intros t Ht; rewrite rows_size; apply HF, HU, Ht).
    rewrite <- flat_map_length. rewrite (Permutation_length (rows_partition ids u HU)). apply seq_length.
  Qed.
End RoundTrip.

Lemma all_products ids u : (forall t, In t ids -> In t u) -> products_in ids u = List.length ids.
Proof.
  unfold products_in. induction ids as [|x ids IH]; intros H; [reflexivity|]. cbn [filter].
  destruct (in_dec Z.eq_dec x u) as [I|I]; [|exfalso; apply I, H; left; reflexivity].
  cbn [List.length]. rewrite IH; [reflexivity|]. intros t Ht. apply H. right. assumption.
Qed.

Lemma one_products ids t : products_in ids [t] = size_of ids t.
Proof.
  unfold products_in, size_of. induction ids as [|x ids IH]; [reflexivity|]. cbn [filter count_occ].
  destruct (in_dec Z.eq_dec x [t]) as [[E|[]]|N], (Z.eq_dec x t) as [F|F]; cbn [List.length]; try congruence.
  exfalso. apply N. left. congruence.
Qed.

Lemma one_largest ids t : largest ids [t] (size_of ids t).
Proof. split; [intros s [<-|[]]; lia|]. exists t. split; [left; reflexivity|reflexivity]. Qed.

Lemma width_rectangular {V} (a : list (list V)) r c : rectangular a r c -> 0 < r -> width a = c.
Proof.
  intros [L F] H. destruct a as [|x a]; [simpl in L; lia|]. inversion F; subst. reflexivity.
Qed.

Lemma element_square {V} (a : list (list V)) r c i j : rectangular a r c -> i < r -> j < c ->
  exists v, element a i j = Some v.
Proof.
  intros [L F] Hi Hj. unfold element. rewrite Forall_forall in F.
  assert (E : List.length (nth i a []) = c) by (apply F, nth_In; lia).
  destruct (nth_error (nth i a []) j) eqn:G; [eexists; reflexivity|].
  apply nth_error_None in G. lia.
Qed.

Lemma nil_or_in (u : list Z) : u = [] \/ exists t, In t u.
Proof. destruct u as [|t u]; [left; reflexivity|right; exists t; left; reflexivity]. Qed.

Section Square.
  Context {V : Type}.
  Variables (ids : list Z) (p : list nat) (u order : list Z) (f : Z -> list (list V)).
  Hypothesis HP : is_stable_argsort ids p.
  Hypothesis HU : sorted_distinct ids u.
  Hypothesis HO : Permutation order u.
  Hypothesis HF : forall t, In t ids -> rectangular (f t) (size_of ids t) (size_of ids t).
  Hypothesis HG : guard ids u.
  Hypothesis HN : ids <> [].

  Lemma square_length t : In t ids -> List.length (f t) = size_of ids t.
  Proof. intros H. apply HF. assumption. Qed.

  Lemma u_nonempty : u <> [].
  Proof.
    intros E. destruct ids as [|t l]; [congruence|]. destruct HU as [_ HI].
    assert (I : In t u) by (apply HI; left; reflexivity). rewrite E in I. destruct I.
  Qed.

  Notation stack := (combined (List.length ids) (market_indices ids p) u order f).

  Lemma square_columns : largest ids u (st_columns stack).
  Proof.
    cbn [combined st_columns].
    assert (E : map (fun t => width (f t)) u = map (size_of ids) u).
    { apply map_ext_in. intros t Ht. apply HU in Ht. eapply width_rectangular; [apply HF; assumption|].
      apply size_pos. assumption. }
    rewrite E. apply max_largest; [exact u_nonempty|intros t; apply HU|].
    intros t. split; [intros H; split; [apply HU|]; assumption|tauto].
  Qed.

  Lemma square_accepted : coerce_matrices (get_indices ids p) u stack = Some stack.
  Proof.
    apply (coerce_matrices_shape ids p u _ _ HP u_nonempty); [intros t; apply HU|].
    split; [reflexivity|]. split; [|exact square_columns].
    rewrite all_products by (intros t; apply HU). apply combined_rows; try assumption. exact square_length.
  Qed.

  Lemma market_diagonal t : In t ids ->
    extract_diagonal (List.length (market_indices ids p t)) (market_argument (market_indices ids p) u stack t)
    = map (fun q => [element (f t) q q]) (seq 0 (size_of ids t)).
  Proof.
    intros Ht. unfold extract_diagonal.
    destruct (argument_rows ids p u HP HU stack t Ht) as [A B].
    { apply combined_rows; try assumption. exact square_length. }
    rewrite A, B, market_indices_rows, rows_size by assumption.
    assert (C : size_of ids t <= st_columns stack) by (apply square_columns, HU; assumption).
    replace (Nat.min (size_of ids t) (Nat.min (size_of ids t) (st_columns stack))) with (size_of ids t) by lia.
    apply map_ext_in. intros q Hq. apply in_seq in Hq.
    rewrite (round_trip ids p u order f HP HU HO square_length HG t q q Ht) by lia. reflexivity.
  Qed.

  Lemma diagonals order' : Permutation order' u ->
    exists r, extract_diagonals ids p u order' stack = Some r /\ st_rows r = List.length ids /\ st_columns r = 1 /\
      forall i, i < List.length ids ->
      st_cell r i 0 = Some (element (f (nth i ids 0%Z)) (rank ids i) (rank ids i)).
  Proof.
    intros HO'. unfold extract_diagonals. rewrite square_accepted. eexists. split; [reflexivity|].
    set (g := fun t => extract_diagonal _ _).
    assert (G : forall t, In t ids -> g t = map (fun q => [element (f t) q q]) (seq 0 (size_of ids t))).
    { intros t Ht. apply market_diagonal. assumption. }
    assert (L : forall t, In t ids -> List.length (g t) = size_of ids t).
    { intros t Ht. rewrite (G t Ht), map_length, seq_length. reflexivity. }
    split; [apply combined_rows; assumption|]. split.
    - cbn [combined st_columns].
      assert (E : map (fun t => width (g t)) u = map (fun _ => 1) u).
      { apply map_ext_in. intros t Ht. apply HU in Ht. rewrite (G t Ht). pose proof (size_pos ids t Ht).
        destruct (size_of ids t); [lia|]. reflexivity. }
      rewrite E. pose proof u_nonempty. destruct u as [|t l]; [congruence|]. clear.
      cbn [map list_max_of fold_right]. assert (fold_right Nat.max 0 (map (fun _ : Z => 1) l) <= 1); [|lia].
      induction l as [|s l IH]; [simpl; lia|]. cbn [map fold_right]. apply Nat.max_lub; [lia|exact IH].
    - intros i Hi. cbn [combined st_cell].
      rewrite (combine_products ids p u order' g HP HU HO'); [|intros t Ht; rewrite rows_size; apply L; assumption|exact HG|exact Hi].
      assert (I : In (nth i ids 0%Z) ids) by (apply nth_In; assumption).
      rewrite (G _ I). pose proof (rank_size ids i Hi) as R. unfold element at 1.
      rewrite (nth_indep _ [] [element (f (nth i ids 0%Z)) 0 0]) by (rewrite map_length, seq_length; assumption).
      rewrite (map_nth (fun q => [element (f (nth i ids 0%Z)) q q]) (seq 0 (size_of ids (nth i ids 0%Z))) 0 (rank ids i)).
      rewrite seq_nth by assumption. reflexivity.
  Qed.
End Square.

Lemma nan_total_map (x : nat -> R) n k :
  nan_total (map (fun q => Some (x q)) (seq k n)) = Some (sumn n (fun q => x (k + q)%nat)).
Proof.
  revert k. induction n as [|n IH]; intros k; [reflexivity|]. cbn [seq map nan_total]. rewrite IH. f_equal.
  assert (S : forall m g, sumn (S m) g = (g 0%nat + sumn m (fun q => g (S q)))%R).
  { clear. induction m as [|m IHm]; intros g; [cbn; ring|].
    change (sumn (S (S m)) g) with (sumn (S m) g + g (S m))%R. rewrite IHm. cbn [sumn]. ring. }
  rewrite (S n (fun q => x (k + q)%nat)). rewrite Nat.add_0_r. f_equal. apply sumn_ext. intros q _. f_equal. lia.
Qed.

Lemma diagonal_means ids p u order order' (f : Z -> list (list R)) (x : Z -> nat -> R) :
  is_stable_argsort ids p -> sorted_distinct ids u -> Permutation order u -> Permutation order' u ->
  (forall t, In t ids -> rectangular (f t) (size_of ids t) (size_of ids t)) ->
  (forall t q, In t ids -> q < size_of ids t -> element (f t) q q = Some (x t q)) ->
  guard ids u -> ids <> [] ->
  exists r, extract_diagonal_means ids p u order' (combined (List.length ids) (market_indices ids p) u order f) = Some r /\
    st_rows r = List.length u /\
    forall q, q < List.length u ->
    st_cell r q 0 = Some (Some (sumn (size_of ids (nth q u 0%Z)) (x (nth q u 0%Z)) / INR (size_of ids (nth q u 0%Z)))%R).
Proof.
  intros HP HU HO HO' HF HX HG HN. unfold extract_diagonal_means.
  rewrite (square_accepted ids p u order f HP HU HF HG HN). eexists. split; [reflexivity|].
  set (g := fun t => [[diagonal_mean _]]). split.
  - cbn [combined st_rows]. rewrite (total_rows_ext g (fun _ => 1)) by reflexivity.
    clear. induction u as [|t u IH]; [reflexivity|]. cbn [fold_right List.length]. rewrite IH. reflexivity.
  - intros q Hq. cbn [combined st_cell].
    rewrite (combine_markets ids p u order' g HU HO'); [|reflexivity|exact Hq].
    assert (I : In (nth q u 0%Z) ids) by (apply HU, nth_In; assumption).
    unfold element, g. cbn [nth nth_error]. f_equal.
    rewrite (market_diagonal ids p u order f HP HU HO HF HG HN _ I).
    set (t := nth q u 0%Z) in *. unfold diagonal_mean.
    assert (C : concat (map (fun k => [element (f t) k k]) (seq 0 (size_of ids t)))
      = map (fun k => Some (x t k)) (seq 0 (size_of ids t))).
    { rewrite <- flat_map_concat_map.
      assert (Q : forall l, (forall k, In k l -> k < size_of ids t) ->
        flat_map (fun k => [element (f t) k k]) l = map (fun k => Some (x t k)) l).
      { induction l as [|k l IH]; intros H; [reflexivity|]. cbn [flat_map map app].
        rewrite HX by (assumption || (apply H; left; reflexivity)). f_equal. apply IH. intros; apply H; right; assumption. }
      apply Q. intros k Hk. apply in_seq in Hk. lia. }
    rewrite C, nan_total_map, map_length, seq_length. reflexivity.
Qed.

(** One selected market. *)
Lemma single_round_trip {V} ids p t (f : Z -> list (list V)) q j :
  is_stable_argsort ids p -> In t ids -> List.length (f t) = size_of ids t -> q < size_of ids t ->
  st_cell (market_argument (market_indices ids p) [t]
    (combined (List.length ids) (market_indices ids p) [t] [t] f) t) q j = element (f t) q j.
Proof.
  intros HP Ht HF Hq. unfold market_argument. cbn [List.length Nat.eqb combined st_cell].
  apply combine_single; try assumption; [right; rewrite rows_size; assumption|lia].
Qed.

Lemma single_diagonal {V} ids p t (f : Z -> list (list V)) :
  is_stable_argsort ids p -> In t ids -> rectangular (f t) (size_of ids t) (size_of ids t) ->
  exists r, extract_diagonals ids p [t] [t] (combined (List.length ids) (market_indices ids p) [t] [t] f) = Some r /\
    st_rows r = size_of ids t /\
    forall q, q < size_of ids t -> st_cell r q 0 = Some (element (f t) q q).
Proof.
  intros HP Ht HF. assert (P := size_pos ids t Ht). unfold extract_diagonals.
  set (m := combined _ _ _ _ f).
  assert (Rm : st_rows m = size_of ids t).
  { cbn [m combined st_rows total_rows fold_right]. rewrite Nat.add_0_r. apply HF. }
  assert (Cm : st_columns m = size_of ids t).
  { cbn [m combined st_columns map list_max_of fold_right]. rewrite (width_rectangular _ _ _ HF P). lia. }
  assert (A : coerce_matrices (get_indices ids p) [t] m = Some m).
  { apply (coerce_matrices_shape ids p [t] m m HP); [discriminate|intros s [<-|[]]; assumption|].
    split; [reflexivity|]. rewrite one_products, Rm, Cm. split; [reflexivity|apply one_largest]. }
  rewrite A. eexists. split; [reflexivity|].
  set (g := fun s => extract_diagonal _ _).
  assert (G : g t = map (fun q => [element (f t) q q]) (seq 0 (size_of ids t))).
  { unfold g, extract_diagonal.
    assert (E1 : st_rows (market_argument (market_indices ids p) [t] m t) = size_of ids t) by exact Rm.
    assert (E2 : st_columns (market_argument (market_indices ids p) [t] m t) = size_of ids t) by exact Cm.
    rewrite E1, E2, market_indices_rows, rows_size, !Nat.min_id by assumption. apply map_ext_in.
    intros q Hq. apply in_seq in Hq. unfold m. rewrite single_round_trip; [reflexivity|assumption..| |lia].
    apply HF. }
  assert (L : List.length (g t) = size_of ids t) by (rewrite G, map_length, seq_length; reflexivity).
  split; [cbn [combined st_rows total_rows fold_right]; lia|].
  intros q Hq. cbn [combined st_cell].
  rewrite combine_single; [|assumption|assumption|right; rewrite rows_size; assumption|lia].
  rewrite G. unfold element at 1.
  rewrite (nth_indep _ [] [element (f t) 0 0]) by (rewrite map_length, seq_length; assumption).
  rewrite (map_nth (fun q => [element (f t) q q]) (seq 0 (size_of ids t)) 0 q).
  rewrite seq_nth by assumption. reflexivity.
Qed.

(** Ownership matrices that were built for all markets. *)
Lemma built_ownership ids p u fids : is_stable_argsort ids p -> sorted_distinct ids u -> ids <> [] ->
  let m := {| st_rows := List.length ids; st_columns := ConstrModel.max_J ids;
              st_cell := fun i j => Some (ConstrModel.build_ownership ids fids ConstrModel.Default i j) |} in
  coerce_ownership (market_indices ids p) u m = Some m /\
  forall t, In t ids ->
  let own := given_ownership (size_of ids t) (market_argument (market_indices ids p) u m t) in
  st_rows own = size_of ids t /\ st_columns own = size_of ids t /\
  forall i j, i < size_of ids t -> j < size_of ids t ->
  st_cell own i j = Some (Num (firm_ownership (map (fun n => nth n fids 0%Z) (rows_of ids t)) i j)).
Proof.
  intros HP HU HN m.
  assert (NE : u <> []).
  { intros E. destruct ids as [|t l]; [congruence|]. destruct HU as [_ HI].
    assert (I : In t u) by (apply HI; left; reflexivity). rewrite E in I. destruct I. }
  assert (MX : largest ids u (ConstrModel.max_J ids)).
  { unfold ConstrModel.max_J, ConstrModel.market_indices.
    pose proof (stable_argsort_correct ids) as SA. rewrite (get_indices_spec ids _ SA).
    pose proof (group_unique_spec ids _ (stable_is_argsort _ _ SA)) as GU.
    assert (E : fold_right (fun (market : Z * list nat) m0 => Nat.max (List.length (snd market)) m0) 0
        (map (fun t => (t, rows_of ids t)) (group_unique ids (stable_argsort ids)))
      = list_max_of (map (size_of ids) (group_unique ids (stable_argsort ids)))).
    { clear. induction (group_unique ids (stable_argsort ids)) as [|t l IH]; [reflexivity|].
      cbn [map fold_right snd]. rewrite IH, rows_size. reflexivity. }
    rewrite E. apply max_largest; [assumption|intros t; apply HU|].
    intros t. destruct GU as [_ GU]. rewrite GU. destruct HU as [_ HI]. rewrite HI. tauto. }
  split.
  - apply (coerce_ownership_shape ids p u m m HP NE (sorted_distinct_nodup ids u HU)); [intros t; apply HU|].
    split; [reflexivity|]. split; [|exact MX]. cbn [m st_rows]. symmetry. apply all_products. intros t; apply HU.
  - intros t Ht own. destruct (argument_rows ids p u HP HU m t Ht eq_refl) as [A B].
    assert (C : size_of ids t <= ConstrModel.max_J ids) by (apply MX, HU; assumption).
    split; [exact A|]. split.
    + unfold own, given_ownership; cbn [st_columns]. rewrite B. cbn [m st_columns]. lia.
    + intros i j Hi Hj. unfold own, given_ownership; cbn [st_cell].
      rewrite (argument_row ids p u HP HU m t i j Ht Hi). cbn [m st_cell]. f_equal.
      destruct (rows_row ids t i Hi) as (N1 & N2 & _).
      rewrite (ConstrProofs.ownership_spec ids fids ConstrModel.Default _ j N1). rewrite N2, rows_size.
      destruct (Nat.ltb_spec j (size_of ids t)); [|lia]. f_equal. unfold firm_ownership.
      rewrite !(nth_indep (map _ _) 0%Z (nth 0 fids 0%Z)) by (rewrite map_length, rows_size; assumption).
      rewrite !(map_nth (fun n => nth n fids 0%Z)). reflexivity.
Qed.

(* ---------- bootstrapped results ---------- *)

Lemma permutation_filter {A} (g : A -> bool) l l' : Permutation l l' -> Permutation (filter g l) (filter g l').
Proof.
  induction 1 as [|x l l' H IH|x y l|l l' l'' H IH H' IH']; cbn [filter].
  - constructor.
  - destruct (g x); [constructor|]; assumption.
  - destruct (g x), (g y); try reflexivity. apply perm_swap.
  - eapply perm_trans; eassumption.
Qed.

Lemma filter_pairs d (u : list Z) l : NoDup l ->
  map snd (filter (fun pair => Nat.eqb d (fst pair)) (list_prod l u)) = if in_dec Nat.eq_dec d l then u else [].
Proof.
  induction l as [|e l IH]; intros ND; [reflexivity|]. inversion ND; subst. cbn [list_prod].
  rewrite filter_app, map_app, IH by assumption.
  assert (F : map snd (filter (fun pair : nat * Z => Nat.eqb d (fst pair)) (map (fun y => (e, y)) u)) = if Nat.eqb d e then u else []).
  { clear. induction u as [|t u IH]; [destruct (Nat.eqb d e); reflexivity|]. cbn [map filter fst].
    destruct (Nat.eqb d e); [cbn [map snd]; rewrite IH|]; [reflexivity|exact IH]. }
  rewrite F. destruct (Nat.eqb_spec d e) as [->|N].
  - destruct (in_dec Nat.eq_dec e l); [contradiction|]. rewrite app_nil_r.
    destruct (in_dec Nat.eq_dec e (e :: l)) as [_|C]; [reflexivity|]. exfalso. apply C. left. reflexivity.
  - destruct (in_dec Nat.eq_dec d l) as [I|I], (in_dec Nat.eq_dec d (e :: l)) as [J|J]; try reflexivity.
    + exfalso. apply J. right. assumption.
    + exfalso. destruct J; [congruence|contradiction].
Qed.

Section BootstrapProofs.
  Context {V : Type}.
  Variables (N : nat) (D : Z -> list nat) (market_ids : list Z) (f : nat -> Z -> list (list V)).

  Lemma bootstrap_fold d : total_rows market_ids (f 0) = total_rows market_ids (f d) -> forall order c,
    fold_left (bootstrap_one N D market_ids f) order c d
    = fold_left (combine_one N D market_ids (f d)) (map snd (filter (fun pair => Nat.eqb d (fst pair)) order)) (c d).
  Proof.
    intros T. induction order as [|[e t] order IH]; intros c; [reflexivity|]. cbn [fold_left filter fst].
    rewrite IH. unfold bootstrap_one at 1. destruct (Nat.eqb_spec d e) as [->|E]; [|reflexivity].
    cbn [map snd fold_left]. f_equal. unfold combine_one. rewrite T. reflexivity.
  Qed.

  Lemma bootstrap_draw draws order d : Permutation order (list_prod (seq 0 draws) market_ids) -> d < draws ->
    (forall e t, In t market_ids -> List.length (f e t) = List.length (f 0 t)) ->
    exists order_d, Permutation order_d market_ids /\
      bootstrap_combine N D market_ids order f d = combine_arrays N D market_ids order_d (f d).
  Proof.
    intros P Hd H. exists (map snd (filter (fun pair => Nat.eqb d (fst pair)) order)). split.
    - apply (permutation_filter (fun pair => Nat.eqb d (fst pair))) in P. apply (Permutation_map snd) in P.
      rewrite filter_pairs in P by apply seq_NoDup.
      destruct (in_dec Nat.eq_dec d (seq 0 draws)) as [_|C]; [exact P|]. exfalso. apply C, in_seq. lia.
    - unfold bootstrap_combine, combine_arrays. apply bootstrap_fold.
      rewrite !(total_rows_ext _ (fun t => List.length (f 0 t))) by (intros; auto). reflexivity.
  Qed.
End BootstrapProofs.

Lemma bootstrap_products {V} ids p u draws order (f : nat -> Z -> list (list V)) :
  is_stable_argsort ids p -> sorted_distinct ids u -> Permutation order (list_prod (seq 0 draws) u) ->
  (forall d t, In t ids -> List.length (f d t) = size_of ids t) -> guard ids u ->
  forall d i j, d < draws -> i < List.length ids ->
  bootstrap_combine (List.length ids) (market_indices ids p) u order f d i j
  = element (f d (nth i ids 0%Z)) (rank ids i) j.
Proof.
  intros HP HU HO HF HG d i j Hd Hi.
  destruct (bootstrap_draw (List.length ids) (market_indices ids p) u f draws order d HO Hd) as (o & Po & E).
  - intros e t Ht. apply HU in Ht. rewrite !HF by assumption. reflexivity.
  - rewrite E. apply combine_products; try assumption. intros t Ht. rewrite rows_size. auto.
Qed.

Lemma bootstrap_markets {V} ids p u draws order (f : nat -> Z -> list (list V)) :
  sorted_distinct ids u -> Permutation order (list_prod (seq 0 draws) u) ->
  (forall d t, In t ids -> List.length (f d t) = 1) ->
  forall d q j, d < draws -> q < List.length u ->
  bootstrap_combine (List.length ids) (market_indices ids p) u order f d q j = element (f d (nth q u 0%Z)) 0 j.
Proof.
  intros HU HO HF d q j Hd Hq.
  destruct (bootstrap_draw (List.length ids) (market_indices ids p) u f draws order d HO Hd) as (o & Po & E).
  - intros e t Ht. apply HU in Ht. rewrite !HF by assumption. reflexivity.
  - rewrite E. apply combine_markets; try assumption. intros t Ht. auto.
Qed.

Lemma bootstrap_single {V} ids p t draws order (f : nat -> Z -> list (list V)) :
  is_stable_argsort ids p -> In t ids -> Permutation order (list_prod (seq 0 draws) [t]) ->
  (forall d, List.length (f d t) = List.length (f 0 t)) ->
  (List.length (f 0 t) = 1 \/ List.length (f 0 t) = size_of ids t) ->
  forall d i j, d < draws -> i < List.length (f d t) ->
  bootstrap_combine (List.length ids) (market_indices ids p) [t] order f d i j = element (f d t) i j.
Proof.
  intros HP Ht HO HF HL d i j Hd Hi.
  destruct (bootstrap_draw (List.length ids) (market_indices ids p) [t] f draws order d HO Hd) as (o & Po & E).
  - intros e s [<-|[]]. apply HF.
  - rewrite E. apply Permutation_sym, Permutation_length_1_inv in Po. subst o. apply combine_single; try assumption.
    rewrite rows_size, HF. assumption.
Qed.
