(** Proofs about simulations. *)
From Coq Require Import Reals List Bool Arith Lia Lra.
From Verif Require Import Base SimModel SimSpec ResultsSpec ResultsProofs.
Import ListNotations.
Local Open Scope nat_scope.

Section Depth.
  Variable lag : nat -> nat.
  Notation has := (has_lag lag).

  Lemma has_lag_spec r : has r = true <-> ~ is_initial lag r.
  Proof. unfold has, has_lag, is_initial. rewrite negb_true_iff, Nat.eqb_neq. reflexivity. Qed.

  Lemma times_two x A c : times_transpose x A c = (A c 0%nat * x 0%nat + A c 1%nat * x 1%nat)%R.
  Proof. unfold times_transpose. cbn. ring. Qed.

  (** [r] is [k] periods after an initial period. *)
  Definition depth (r k : nat) : Prop :=
    is_initial lag (Nat.iter k lag r) /\ forall m, m < k -> ~ is_initial lag (Nat.iter m lag r).

  Lemma iter_shift k r : Nat.iter (S k) lag r = Nat.iter k lag (lag r).
  Proof. induction k as [|k IH]; [reflexivity|]. cbn in *. rewrite IH. reflexivity. Qed.

  Lemma depth_zero r : depth r 0 <-> is_initial lag r.
  Proof. unfold depth. cbn. split; [tauto|]. intro H. split; [exact H|]. intros m Hm. lia. Qed.

  Lemma depth_succ r k : depth r (S k) <-> ~ is_initial lag r /\ depth (lag r) k.
  Proof.
    unfold depth. rewrite iter_shift. split.
    - intros [A B]. split; [apply (B 0); lia|]. split; [exact A|]. intros m Hm. rewrite <- iter_shift. apply B. lia.
    - intros [A [B C]]. split; [exact B|]. intros [|m] Hm; [exact A|]. rewrite iter_shift. apply C. lia.
  Qed.

  Lemma depth_unique r k m : depth r k -> depth r m -> k = m.
  Proof.
    revert r m. induction k as [|k IH]; intros r [|m] A B; auto.
    - apply depth_zero in A. apply depth_succ in B. tauto.
    - apply depth_zero in B. apply depth_succ in A. tauto.
    - apply depth_succ in A, B. f_equal. apply (IH (lag r)); tauto.
  Qed.

  Lemma started_depth r : started lag r -> exists k, depth r k.
  Proof.
    intros [k H]. revert r H. induction k as [|k IH]; intros r H.
    - exists 0. apply depth_zero. exact H.
    - destruct (Nat.eq_dec (lag r) r) as [E|NE]; [exists 0; apply depth_zero; exact E|].
      rewrite iter_shift in H. destruct (IH _ H) as [m D]. exists (S m). apply depth_succ. split; [exact NE|exact D].
  Qed.

  Lemma depth_iter r k m : depth r k -> m <= k -> depth (Nat.iter m lag r) (k - m).
  Proof.
    revert r k. induction m as [|m IH]; intros r k D L.
    - rewrite Nat.sub_0_r. exact D.
    - destruct k as [|k]; [lia|]. apply depth_succ in D. rewrite iter_shift. replace (S k - S m) with (k - m) by lia.
      apply IH; [tauto|lia].
  Qed.

End Depth.

Section Errors.
  Variables (N : nat) (lag : nat -> nat) (phi transform draws : nat -> nat -> R).
  Hypothesis proper : proper_lags N lag.
  Notation has := (has_lag lag).

  Lemma iter_below r k : r < N -> Nat.iter k lag r < N.
  Proof. intro H. induction k as [|k IH]; [exact H|]. cbn. apply proper, IH. Qed.

  Lemma depth_bound r k : r < N -> depth lag r k -> k < N.
  Proof.
    intros L D. set (chain := map (fun m => Nat.iter m lag r) (seq 0 (S k))).
    assert (ND : NoDup chain).
    { unfold chain. assert (G : forall l, NoDup l -> (forall m, In m l -> m <= k) -> NoDup (map (fun m => Nat.iter m lag r) l)).
      { induction l as [|m l IH]; intros Hn Hl; [constructor|]. inversion Hn as [|? ? NI Hn']; subst. cbn [map]. constructor.
        - intro I. apply in_map_iff in I. destruct I as (q & E & I). apply NI.
          assert (A := depth_iter lag r k m D (Hl m (or_introl eq_refl))).
          assert (B := depth_iter lag r k q D (Hl q (or_intror I))). rewrite E in B.
          assert (U := depth_unique lag _ _ _ A B). assert (m = q); [|congruence].
          assert (m <= k) by (apply Hl; left; reflexivity). assert (q <= k) by (apply Hl; right; exact I). lia.
        - apply IH; [exact Hn'|]. intros q Hq. apply Hl. right. exact Hq. }
      apply G; [apply seq_NoDup|]. intros m Hm. apply in_seq in Hm. lia. }
    assert (INC : incl chain (seq 0 N)).
    { intros y Hy. unfold chain in Hy. apply in_map_iff in Hy. destruct Hy as (m & <- & _). apply in_seq.
      assert (B := iter_below r m L). lia. }
    assert (LE := NoDup_incl_length ND INC). unfold chain in LE. rewrite map_length, !seq_length in LE. lia.
  Qed.

  Lemma min_list l : (forall j, In j l -> j < N) -> (l = [] /\ fold_right Nat.min N l = N) \/ In (fold_right Nat.min N l) l.
  Proof.
    induction l as [|j l IH]; intro H; [left; auto|]. right. cbn [fold_right].
    assert (Hj := H j (or_introl eq_refl)).
    destruct IH as [[-> E]|I]; [intros q Hq; apply H; right; exact Hq| |].
    - rewrite E. left. lia.
    - destruct (Nat.min_dec j (fold_right Nat.min N l)) as [E|E]; rewrite E; [left; reflexivity|right; exact I].
  Qed.

  (** The following rows of some rows are those that lag them. *)
  Lemma following_in l r : In r (following N lag l) <-> r < N /\ ~ is_initial lag r /\ In (lag r) l.
  Proof.
    unfold following. rewrite filter_In, in_map_iff, negb_true_iff, Nat.eqb_neq.
    assert (F : forall i, In (lookup N lag i) (filter (fun j => has_lag lag j && Nat.eqb (lag j) i) (seq 0 N)) \/ lookup N lag i = N).
    { intro i. unfold lookup. set (f := filter _ _). assert (B : forall j, In j f -> j < N).
      { intros j Hj. unfold f in Hj. apply filter_In in Hj. destruct Hj as [Hj _]. apply in_seq in Hj. lia. }
      destruct (min_list f B) as [[_ E]|I]; [right; exact E|left; exact I]. }
    assert (M : forall i j, In j (filter (fun j => has_lag lag j && Nat.eqb (lag j) i) (seq 0 N)) <->
                            j < N /\ ~ is_initial lag j /\ lag j = i).
    { intros i j. rewrite filter_In, in_seq, andb_true_iff, Nat.eqb_eq. rewrite has_lag_spec. intuition lia. }
    split.
    - intros [(i & E & I) NE]. destruct (F i) as [Q|Q]; [|congruence]. rewrite E in Q. apply M in Q.
      destruct Q as (A & B & C). rewrite C. tauto.
    - intros (A & B & C). split; [|lia]. exists (lag r). split; [|exact C].
      assert (Q : In r (filter (fun j => has_lag lag j && Nat.eqb (lag j) (lag r)) (seq 0 N))) by (apply M; tauto).
      destruct (F (lag r)) as [P|P].
      + apply M in P. destruct P as (P1 & P2 & P3). destruct proper as [_ U]. apply U; assumption.
      + exfalso. unfold lookup in P. 
        assert (LE : fold_right Nat.min N (filter (fun j => has_lag lag j && Nat.eqb (lag j) (lag r)) (seq 0 N)) <= r).
        { clear -Q. induction (filter _ _) as [|j l IH]; [destruct Q|]. cbn [fold_right]. destruct Q as [->|Q]; [lia|].
          specialize (IH Q). lia. }
        lia.
  Qed.

  (** The errors that the recursion gives. *)
  Fixpoint solution (k r c : nat) : R :=
    match k with
    | O => times_transpose (draws r) transform c
    | S k => (draws r c + times_transpose (solution k (lag r)) phi c)%R
    end.

  Definition reached (m : nat) (x : nat -> nat -> R) : Prop :=
    forall r c, r < N ->
      (forall k, depth lag r k -> k <= m -> x r c = solution k r c) /\
      ((forall k, depth lag r k -> m < k) -> ~ is_initial lag r -> x r c = draws r c).

  Definition front (m : nat) (next : list nat) : Prop := forall r, In r next <-> r < N /\ depth lag r (S m).

  Lemma times_ext x y A c : (forall d, x d = y d) -> times_transpose x A c = times_transpose y A c.
  Proof. intro H. unfold times_transpose. apply sumn_ext. intros d _. rewrite H. reflexivity. Qed.

  Lemma propagate_step m x next : reached m x -> front m next ->
    reached (S m) (propagate lag phi x next) /\ front (S m) (following N lag next).
  Proof.
    intros R F. split.
    - intros r c L. unfold propagate. destruct (in_dec Nat.eq_dec r next) as [I|NI].
      + apply F in I. destruct I as [_ D]. split.
        * intros k Dk Lk. assert (k = S m) by (apply (depth_unique lag r); assumption). subst k. cbn [solution].
          assert (NI : ~ is_initial lag r) by (apply depth_succ in D; tauto). apply depth_succ in D. destruct D as [_ D].
          rewrite (proj2 (R r c L)); [|intros q Dq|exact NI].
          -- f_equal. apply times_ext. intro d. apply (proj1 (R (lag r) d (proj1 proper r L))); [exact D|lia].
          -- assert (q = S m) by (apply (depth_unique lag r); assumption). lia.
        * intros H _. specialize (H (S m) D). lia.
      + split.
        * intros k Dk Lk. apply (proj1 (R r c L)); [exact Dk|]. destruct (Nat.eq_dec k (S m)) as [->|]; [|lia].
          exfalso. apply NI, F. split; assumption.
        * intros H. apply (proj2 (R r c L)). intros k Dk. specialize (H k Dk). lia.
    - intro r. rewrite following_in, (depth_succ lag r (S m)), (F (lag r)). split.
      + intros (A & B & C & D). auto.
      + intros (A & B & C). split; [exact A|]. split; [exact B|]. split; [apply proper, A|exact C].
  Qed.

  Lemma propagate_end fuel : forall m x next, reached m x -> front m next -> N <= fuel + m + 1 ->
    exists y, propagate_all N lag phi fuel x next = Some y /\
      exists m', reached m' y /\ forall r k, r < N -> depth lag r k -> k <= m'.
  Proof.
    induction fuel as [|fuel IH]; intros m x next R F L.
    - destruct next as [|r next].
      + exists x. split; [reflexivity|]. exists m. split; [exact R|]. intros r k Hr D.
        assert (B := depth_bound r k Hr D). lia.
      + exfalso. assert (I : In r (r :: next)) by (left; reflexivity). apply F in I. destruct I as [Hr D].
        assert (B := depth_bound r _ Hr D). lia.
    - destruct next as [|r next].
      + exists x. split; [reflexivity|]. exists m. split; [exact R|]. intros r k Hr D.
        destruct (Nat.le_gt_cases k m) as [|G]; [assumption|]. exfalso.
        assert (D' := depth_iter lag r k (k - S m) D ltac:(lia)). replace (k - (k - S m)) with (S m) in D' by lia.
        assert (I : In (Nat.iter (k - S m) lag r) []) by (apply F; split; [apply iter_below, Hr|exact D']). destruct I.
      + destruct (propagate_step m x (r :: next) R F) as [R' F'].
        destruct (IH (S m) _ _ R' F') as (y & E & K); [lia|]. exists y. split; [exact E|exact K].
  Qed.

  Lemma simulate_spec : exists errors, simulate_errors N lag phi transform draws N = Some errors /\
    (forall r, r < N -> started lag r -> ~ is_initial lag r -> autoregressive lag phi draws errors r) /\
    (forall r, r < N -> is_initial lag r -> transformed transform draws errors r) /\
    (forall r c, r < N -> ~ started lag r -> errors r c = draws r c).
  Proof.
    unfold simulate_errors.
    assert (R0 : reached 0 (initial_errors lag transform draws)).
    { intros r c L. unfold initial_errors. split.
      - intros k D Lk. assert (k = 0) by lia. subst k. apply depth_zero in D.
        destruct (has r) eqn:E; [apply has_lag_spec in E; contradiction|]. reflexivity.
      - intros _ NI. apply has_lag_spec in NI. rewrite NI. reflexivity. }
    assert (F0 : front 0 (following N lag (filter (fun r => negb (has_lag lag r)) (seq 0 N)))).
    { intro r. rewrite following_in, filter_In, in_seq, negb_true_iff, depth_succ, depth_zero.
      rewrite <- not_true_iff_false, has_lag_spec. split.
      - intros (A & B & C & D). split; [exact A|]. split; [exact B|]. unfold is_initial in *. 
        destruct (Nat.eq_dec (lag (lag r)) (lag r)); [assumption|]. exfalso. apply D. assumption.
      - intros (A & B & C). split; [exact A|]. split; [exact B|]. split; [|tauto].
        assert (P := proj1 proper r A). lia. }
    destruct (propagate_end N 0 _ _ R0 F0) as (y & E & m & R & B); [lia|].
    exists y. split; [exact E|]. split; [|split].
    - intros r L S NI c. destruct (started_depth lag r S) as [[|k] D]; [apply depth_zero in D; contradiction|].
      rewrite (proj1 (R r c L) (Datatypes.S k) D (B r _ L D)). cbn [solution]. apply depth_succ in D. destruct D as [_ D].
      assert (L' := proj1 proper r L). f_equal. rewrite times_two.
      rewrite !(proj1 (R (lag r) _ L') k D (B _ _ L' D)). reflexivity.
    - intros r L I c. apply depth_zero in I. rewrite (proj1 (R r c L) 0 I (B r 0 L I)). cbn [solution]. apply times_two.
    - intros r c L S. apply (proj2 (R r c L)).
      + intros k D. exfalso. apply S. exists k. apply D.
      + intro I. apply S. exists 0. exact I.
  Qed.
End Errors.

(** ** Replacing exogenous characteristics *)

Lemma index_linear columns parameters d : index_of_row columns parameters d = linear_index columns parameters d.
Proof.
  unfold index_of_row. revert parameters. induction columns as [|c columns IH]; intros [|b parameters]; cbn; try reflexivity.
  rewrite IH. reflexivity.
Qed.

Lemma first_index_spec u x columns k : first_index u x columns = Some k ->
  k < List.length columns /\ forall c0, u x (nth k columns c0) = true.
Proof.
  revert k. induction columns as [|c columns IH]; intros k H; cbn in H; [discriminate|].
  destruct (u x c) eqn:E.
  - injection H as <-. cbn. split; [lia|]. intros _. exact E.
  - destruct (first_index u x columns) as [q|]; [|discriminate]. cbn in H. injection H as <-.
    destruct (IH q eq_refl) as [A B]. cbn. split; [lia|exact B].
Qed.

Lemma mentions_spec x c : mentions x c = true <-> In x (names c).
Proof.
  unfold mentions. rewrite existsb_exists. split.
  - intros (y & I & E). apply Nat.eqb_eq in E. rewrite E. exact I.
  - intro I. exists x. split; [exact I|apply Nat.eqb_refl].
Qed.

Lemma validated u x e own others parameters k : recognises u -> validate_name u x e own others parameters = Some k ->
  k < List.length own /\ (forall c0, names (nth k own c0) = [x] /\ forall d, value (nth k own c0) d = d x) /\
  (forall j c0, j < List.length own -> j <> k -> ~ In x (names (nth j own c0))) /\
  (forall c, In c others -> ~ In x (names c)) /\ x <> e /\ nth k parameters 0%R <> 0%R.
Proof.
  intros RU H. unfold validate_name in H. destruct (first_index u x own) as [q|] eqn:F; [|discriminate].
  destruct (Nat.ltb_spec 1 (List.length (filter (mentions x) own))) as [|ONE]; [discriminate|].
  destruct (existsb (mentions x) others) eqn:O; [discriminate|].
  destruct (Nat.eqb_spec x e) as [|NE]; [discriminate|].
  destruct (Req_EM_T (nth q parameters 0%R) 0) as [|NZ]; [discriminate|]. injection H as <-.
  destruct (first_index_spec u x own q F) as [L U]. split; [exact L|].
  split; [intro c0; apply RU, U|]. split.
  - intros j c0 Hj NJ I. apply mentions_spec in I.
    assert (Q : mentions x (nth q own c0) = true) by (apply mentions_spec; rewrite (proj1 (RU _ _ (U c0))); left; reflexivity).
    clear -ONE Hj NJ I Q L. assert (G : forall (l : list column) i j, i < j -> j < List.length l -> mentions x (nth i l c0) = true ->
      mentions x (nth j l c0) = true -> 2 <= List.length (filter (mentions x) l)).
    { clear. induction l as [|c l IH]; intros i j H1 H2 A B; [cbn in H2; lia|]. destruct j as [|j]; [lia|]. cbn [nth List.length filter] in *.
      destruct i as [|i].
      - rewrite A. cbn. assert (In (nth j l c0) (filter (mentions x) l)) by (apply filter_In; split; [apply nth_In; lia|exact B]).
        destruct (filter (mentions x) l); [contradiction|cbn; lia].
      - specialize (IH i j ltac:(lia) ltac:(lia) A B). destruct (mentions x c); cbn; lia. }
    destruct (Nat.lt_ge_cases j q).
    + assert (2 <= List.length (filter (mentions x) own)) by (apply (G own j q); assumption). lia.
    + assert (2 <= List.length (filter (mentions x) own)) by (apply (G own q j); [lia|assumption|assumption|assumption]). lia.
  - split; [|split; assumption]. intros c Ic I. apply mentions_spec in I.
    assert (existsb (mentions x) others = true) by (apply existsb_exists; exists c; auto). congruence.
Qed.

Lemma override_other d x v y : y <> x -> override d x v y = d y.
Proof. intro H. unfold override. destruct (Nat.eqb_spec y x); [contradiction|reflexivity]. Qed.
Lemma override_same d x v : override d x v x = v.
Proof. unfold override. rewrite Nat.eqb_refl. reflexivity. Qed.

Lemma column_unchanged c d x v : column_ok c -> ~ In x (names c) -> value c (override d x v) = value c d.
Proof. intros H N. apply H. intros y I. apply override_other. intro E. subst y. contradiction. Qed.

(** Changing one column by [v] changes the linear index by [v] times its parameter. *)
Lemma index_change columns parameters d d' k c0 : k < List.length columns -> List.length parameters = List.length columns ->
  (forall j, j < List.length columns -> j <> k -> value (nth j columns c0) d' = value (nth j columns c0) d) ->
  linear_index columns parameters d' = (linear_index columns parameters d
    + (value (nth k columns c0) d' - value (nth k columns c0) d) * nth k parameters 0)%R.
Proof.
  revert parameters k. induction columns as [|c columns IH]; intros [|b parameters] k L E H; cbn [List.length] in *; try lia.
  injection E as E. destruct k as [|k]; cbn [linear_index nth].
  - assert (S : linear_index columns parameters d' = linear_index columns parameters d).
    { assert (H' : forall j, j < List.length columns -> value (nth j columns c0) d' = value (nth j columns c0) d).
      { intros j Hj. apply (H (S j)); lia. }
      clear -H' E. revert parameters E. induction columns as [|c columns IH]; intros [|b parameters] E; try reflexivity; try discriminate.
      cbn [linear_index]. assert (Z := H' 0 ltac:(cbn; lia)). cbn [nth] in Z. rewrite Z. rewrite IH; [reflexivity| |cbn in E; lia].
      intros j Hj. apply (H' (S j)). cbn. lia. }
    rewrite S. ring.
  - assert (Z := H 0 ltac:(lia) ltac:(lia)). cbn [nth] in Z. rewrite Z. rewrite (IH parameters k); [|lia|exact E|intros j Hj NJ; apply (H (S j)); lia]. ring.
Qed.

Lemma replaced_index u columns parameters x e others k d d' target error : recognises u ->
  (forall c, In c columns -> column_ok c) -> List.length parameters = List.length columns ->
  validate_name u x e columns others parameters = Some k ->
  d' x = replacement columns parameters k d target error ->
  (forall j c0, j < List.length columns -> j <> k -> value (nth j columns c0) d' = value (nth j columns c0) d) ->
  (linear_index columns parameters d' + error)%R = target.
Proof.
  intros RU OK LEN V E H. destruct (validated u x e columns others parameters k RU V) as (L & U & _ & _ & _ & NZ).
  set (c0 := Column [] (fun _ => 0%R)).
  rewrite (index_change columns parameters d d' k c0 L LEN (fun j => H j c0)).
  rewrite (proj2 (U c0) d'), E. unfold replacement. fold c0. rewrite index_linear. field. exact NZ.
Qed.

Lemma replace_spec u X1 X2 X3 beta gamma prices shares n1 n3 d delta xi costs omega d' :
  recognises u -> (forall c, In c (X1 ++ X2 ++ X3) -> column_ok c) ->
  List.length beta = List.length X1 -> List.length gamma = List.length X3 ->
  replace_exogenous u X1 X2 X3 beta gamma prices shares n1 n3 d delta xi costs omega = Some d' ->
  (linear_index X1 beta d' + xi)%R = delta /\
  (X3 <> [] -> (linear_index X3 gamma d' + omega)%R = costs) /\
  (forall c, In c X2 -> value c d' = value c d) /\
  (exists k, k < List.length X1 /\ forall j c0, j < List.length X1 -> j <> k -> value (nth j X1 c0) d' = value (nth j X1 c0) d) /\
  (exists k, forall j c0, j < List.length X3 -> j <> k -> value (nth j X3 c0) d' = value (nth j X3 c0) d) /\
  (forall y, y <> n1 -> y <> n3 -> d' y = d y) /\ (n1 <> prices) /\ (X3 <> [] -> n3 <> shares).
Proof.
  intros RU OK LB LG H. unfold replace_exogenous in H.
  destruct (validate_name u n1 prices X1 (X2 ++ X3) beta) as [k1|] eqn:V1; [|discriminate].
  destruct (validated u n1 prices X1 (X2 ++ X3) beta k1 RU V1) as (L1 & U1 & D1 & O1 & P1 & Z1).
  assert (OK1 : forall c, In c X1 -> column_ok c) by (intros c Ic; apply OK; apply in_app_iff; left; exact Ic).
  assert (OK2 : forall c, In c X2 -> column_ok c) by (intros c Ic; apply OK; rewrite !in_app_iff; tauto).
  assert (OK3 : forall c, In c X3 -> column_ok c) by (intros c Ic; apply OK; rewrite !in_app_iff; tauto).
  assert (NI : forall (l : list column) j c0, j < List.length l -> In (nth j l c0) l) by (intros; apply nth_In; assumption).
  destruct X3 as [|c3 X3'] eqn:E3.
  - injection H as <-. set (v := replacement X1 beta k1 d delta xi).
    assert (K : forall j c0, j < List.length X1 -> j <> k1 -> value (nth j X1 c0) (override d n1 v) = value (nth j X1 c0) d).
    { intros j c0 Lj NJ. apply column_unchanged; [apply OK1, NI, Lj|apply D1; assumption]. }
    split; [apply (replaced_index u X1 beta n1 prices (X2 ++ []) k1 d _ delta xi RU OK1 LB V1); [apply override_same|exact K]|].
    split; [intro C; contradiction C; reflexivity|].
    split; [intros c Ic; apply column_unchanged; [apply OK2, Ic|apply O1; rewrite app_nil_r; exact Ic]|].
    split; [exists k1; split; [exact L1|exact K]|]. split; [exists 0; intros j c0 Lj; cbn in Lj; lia|].
    split; [intros y N1 _; apply override_other, N1|]. split; [exact P1|]. intro C. contradiction C. reflexivity.
  - rewrite <- E3 in *. destruct (validate_name u n3 shares X3 (X1 ++ X2) gamma) as [k3|] eqn:V3; [|discriminate].
    injection H as <-.
    destruct (validated u n3 shares X3 (X1 ++ X2) gamma k3 RU V3) as (L3 & U3 & D3 & O3 & P3 & Z3).
    assert (NN : n1 <> n3).
    { intro E. apply (O1 (nth k3 X3 c3)); [rewrite in_app_iff; right; apply NI, L3|]. rewrite (proj1 (U3 c3)), E. left. reflexivity. }
    set (v1 := replacement X1 beta k1 d delta xi). set (v3 := replacement X3 gamma k3 d costs omega).
    assert (K1 : forall j c0, j < List.length X1 -> j <> k1 ->
              value (nth j X1 c0) (override (override d n1 v1) n3 v3) = value (nth j X1 c0) d).
    { intros j c0 Lj NJ. rewrite column_unchanged; [|apply OK1, NI, Lj|apply O3; rewrite in_app_iff; left; apply NI, Lj].
      apply column_unchanged; [apply OK1, NI, Lj|apply D1; assumption]. }
    assert (K3 : forall j c0, j < List.length X3 -> j <> k3 ->
              value (nth j X3 c0) (override (override d n1 v1) n3 v3) = value (nth j X3 c0) d).
    { intros j c0 Lj NJ. rewrite column_unchanged; [|apply OK3, NI, Lj|apply D3; assumption].
      apply column_unchanged; [apply OK3, NI, Lj|apply O1; rewrite in_app_iff; right; apply NI, Lj]. }
    split; [apply (replaced_index u X1 beta n1 prices (X2 ++ X3) k1 d _ delta xi RU OK1 LB V1);
            [rewrite override_other by exact NN; apply override_same|exact K1]|].
    split; [intros _; apply (replaced_index u X3 gamma n3 shares (X1 ++ X2) k3 d _ costs omega RU OK3 LG V3);
            [apply override_same|exact K3]|].
    split.
    { intros c Ic. rewrite column_unchanged; [|apply OK2, Ic|apply O3; rewrite in_app_iff; right; exact Ic].
      apply column_unchanged; [apply OK2, Ic|apply O1; rewrite in_app_iff; left; exact Ic]. }
    split; [exists k1; split; [exact L1|exact K1]|]. split; [exists k3; exact K3|].
    split; [intros y N1 N3; rewrite override_other by exact N3; apply override_other, N1|].
    split; [exact P1|]. intros _. exact P3.
Qed.

(** ** Moments *)

Section Moments.
  Variables (N K : nat) (p : nat -> R) (lag : nat -> nat) (phi S V transform : nat -> nat -> R) (draws : nat -> nat -> nat -> R).
  Hypothesis proper : proper_lags N lag.
  Hypothesis uncorrelated : uncorrelated_draws N K p draws S.
  Hypothesis solved : lyapunov phi S V.
  Hypothesis scaled : forall a b, a < 2 -> b < 2 ->
    sumn 2 (fun c => sumn 2 (fun d => (transform a c * S c d * transform b d)%R)) = V a b.
  Let sol (n : nat) (k r c : nat) : R := solution lag phi transform (draws k) n r c.

  Lemma expect_two f g h : (forall k, f k = (g k + h k)%R) -> expect K p f = (expect K p g + expect K p h)%R.
  Proof. intro E. rewrite <- expect_plus. apply expect_ext. intros k _. apply E. Qed.

  (** Errors are uncorrelated with draws for rows outside of their past. *)
  Lemma past_uncorrelated n : forall r s a b, r < N -> s < N -> a < 2 -> b < 2 -> (forall m, m <= n -> Nat.iter m lag r <> s) ->
    expect K p (fun k => (sol n k r a * draws k s b)%R) = 0%R.
  Proof.
    induction n as [|n IH]; intros r s a b Hr Hs Ha Hb NE.
    - assert (Z : forall c, c < 2 -> expect K p (fun k => (draws k r c * draws k s b)%R) = 0%R).
      { intros c Hc. rewrite uncorrelated by assumption. destruct (Nat.eqb_spec r s) as [E|]; [|reflexivity].
        exfalso. apply (NE 0); [lia|exact E]. }
      rewrite (expect_two _ (fun k => transform a 0%nat * (draws k r 0%nat * draws k s b))%R
                            (fun k => transform a 1%nat * (draws k r 1%nat * draws k s b))%R).
      + rewrite !expect_scal, !Z by lia. ring.
      + intro k. unfold sol. cbn [solution]. rewrite times_two. ring.
    - assert (Z : expect K p (fun k => (draws k r a * draws k s b)%R) = 0%R).
      { rewrite uncorrelated by assumption. destruct (Nat.eqb_spec r s) as [E|]; [|reflexivity]. exfalso. apply (NE 0); [lia|exact E]. }
      assert (Q : forall c, c < 2 -> expect K p (fun k => (sol n k (lag r) c * draws k s b)%R) = 0%R).
      { intros c Hc. apply IH; try assumption; [apply proper, Hr|]. intros m Hm. rewrite <- iter_shift. apply NE. lia. }
      rewrite (expect_two _ (fun k => draws k r a * draws k s b)%R
                 (fun k => phi a 0%nat * (sol n k (lag r) 0%nat * draws k s b) + phi a 1%nat * (sol n k (lag r) 1%nat * draws k s b))%R).
      + rewrite expect_plus, !expect_scal, Z, !Q by lia. ring.
      + intro k. unfold sol. cbn [solution]. rewrite times_two. ring.
  Qed.

  Lemma solution_moments n : forall r a b, r < N -> depth lag r n -> a < 2 -> b < 2 ->
    expect K p (fun k => (sol n k r a * sol n k r b)%R) = V a b.
  Proof.
    induction n as [|n IH]; intros r a b Hr D Ha Hb.
    - rewrite <- scaled by assumption. cbn [sumn].
      assert (Z : forall c d, c < 2 -> d < 2 -> expect K p (fun k => (draws k r c * draws k r d)%R) = S c d).
      { intros c d Hc Hd. rewrite uncorrelated by assumption. rewrite Nat.eqb_refl. reflexivity. }
      rewrite <- !Z by lia.
      rewrite (expect_two _
        (fun k => transform a 0%nat * transform b 0%nat * (draws k r 0%nat * draws k r 0%nat)
                + transform a 0%nat * transform b 1%nat * (draws k r 0%nat * draws k r 1%nat))%R
        (fun k => transform a 1%nat * transform b 0%nat * (draws k r 1%nat * draws k r 0%nat)
                + transform a 1%nat * transform b 1%nat * (draws k r 1%nat * draws k r 1%nat))%R).
      + rewrite !expect_plus, !expect_scal. ring.
      + intro k. unfold sol. cbn [solution]. rewrite !times_two. ring.
    - rewrite solved by assumption. assert (D' := D). apply depth_succ in D'. destruct D' as [NI D'].
      assert (Hl := proj1 proper r Hr).
      assert (Z : forall c d, c < 2 -> d < 2 -> expect K p (fun k => (sol n k (lag r) c * draws k r d)%R) = 0%R).
      { intros c d Hc Hd. apply past_uncorrelated; try assumption. intros m Hm E.
        rewrite <- iter_shift in E. assert (Q := depth_iter lag r _ (Datatypes.S m) D ltac:(lia)). rewrite E in Q.
        assert (U := depth_unique lag r _ _ D Q). lia. }
      assert (E0 : expect K p (fun k => (draws k r a * draws k r b)%R) = S a b).
      { rewrite uncorrelated by assumption. rewrite Nat.eqb_refl. reflexivity. }
      rewrite <- E0. cbn [sumn]. rewrite <- !(IH (lag r)) by (try assumption; lia).
      rewrite (expect_two _ (fun k => draws k r a * draws k r b)%R
        (fun k => (phi b 0%nat * (sol n k (lag r) 0%nat * draws k r a) + phi b 1%nat * (sol n k (lag r) 1%nat * draws k r a))
                + ((phi a 0%nat * (sol n k (lag r) 0%nat * draws k r b) + phi a 1%nat * (sol n k (lag r) 1%nat * draws k r b))
                + ((phi a 0%nat * phi b 0%nat * (sol n k (lag r) 0%nat * sol n k (lag r) 0%nat)
                  + phi a 0%nat * phi b 1%nat * (sol n k (lag r) 0%nat * sol n k (lag r) 1%nat))
                 + (phi a 1%nat * phi b 0%nat * (sol n k (lag r) 1%nat * sol n k (lag r) 0%nat)
                  + phi a 1%nat * phi b 1%nat * (sol n k (lag r) 1%nat * sol n k (lag r) 1%nat)))))%R).
      + rewrite !expect_plus, !expect_scal, !Z by lia. ring.
      + intro k. unfold sol. cbn [solution]. rewrite !times_two. ring.
  Qed.

  Lemma started_moments errors r a b : (forall k, k < K -> simulate_errors N lag phi transform (draws k) N = Some (errors k)) ->
    r < N -> started lag r -> a < 2 -> b < 2 -> expect K p (fun k => (errors k r a * errors k r b)%R) = V a b.
  Proof.
    intros H Hr ST Ha Hb. destruct (started_depth lag r ST) as [n D].
    rewrite <- (solution_moments n r a b Hr D Ha Hb). apply expect_ext. intros k Hk.
    assert (E : forall c, errors k r c = sol n k r c); [|rewrite !E; reflexivity].
    clear -H Hk Hr D proper. specialize (H k Hk).
    destruct (simulate_spec N lag phi transform (draws k) proper) as (x & E & A & B & _).
    assert (errors k = x) by congruence. subst x. unfold sol. revert r Hr D. induction n as [|n IH]; intros r Hr D c.
    - apply depth_zero in D. rewrite (B r Hr D c). cbn [solution]. symmetry. apply times_two.
    - assert (ST : started lag r) by (exists (Datatypes.S n); apply D). apply depth_succ in D. destruct D as [NI D].
      rewrite (A r Hr ST NI c). cbn [solution]. rewrite times_two. rewrite !(IH (lag r) (proj1 proper r Hr) D). reflexivity.
  Qed.
End Moments.

Lemma scaling S V Ls Lv inverse : factor S Ls -> factor V Lv -> left_inverse Ls inverse -> forall a b, a < 2 -> b < 2 ->
  sumn 2 (fun c => sumn 2 (fun d => (product Lv inverse a c * S c d * product Lv inverse b d)%R)) = V a b.
Proof.
  intros FS FV I a b Ha Hb. rewrite (FV a b Ha Hb).
  assert (I00 := I 0 0 ltac:(lia) ltac:(lia)). assert (I01 := I 0 1 ltac:(lia) ltac:(lia)).
  assert (I10 := I 1 0 ltac:(lia) ltac:(lia)). assert (I11 := I 1 1 ltac:(lia) ltac:(lia)).
  unfold product. cbn [sumn Nat.eqb] in *. rewrite !(FS 0 _), !(FS 1 _) by lia. cbn [sumn].
  set (u := Lv a) in *. set (v := Lv b) in *. set (i := inverse) in *. set (l := Ls) in *.
  assert (P : forall x : nat -> R, 
    ((x 0%nat * i 0%nat 0%nat + x 1%nat * i 1%nat 0%nat) * l 0%nat 0%nat + (x 0%nat * i 0%nat 1%nat + x 1%nat * i 1%nat 1%nat) * l 1%nat 0%nat = x 0%nat)%R /\
    ((x 0%nat * i 0%nat 0%nat + x 1%nat * i 1%nat 0%nat) * l 0%nat 1%nat + (x 0%nat * i 0%nat 1%nat + x 1%nat * i 1%nat 1%nat) * l 1%nat 1%nat = x 1%nat)%R).
  { intro x. split.
    - transitivity (x 0%nat * (0 + i 0%nat 0%nat * l 0%nat 0%nat + i 0%nat 1%nat * l 1%nat 0%nat) + x 1%nat * (0 + i 1%nat 0%nat * l 0%nat 0%nat + i 1%nat 1%nat * l 1%nat 0%nat))%R; [ring|].
      rewrite I00, I10. ring.
    - transitivity (x 0%nat * (0 + i 0%nat 0%nat * l 0%nat 1%nat + i 0%nat 1%nat * l 1%nat 1%nat) + x 1%nat * (0 + i 1%nat 0%nat * l 0%nat 1%nat + i 1%nat 1%nat * l 1%nat 1%nat))%R; [ring|].
      rewrite I01, I11. ring. }
  destruct (P u) as [U0 U1], (P v) as [V0 V1].
  transitivity (((u 0%nat * i 0%nat 0%nat + u 1%nat * i 1%nat 0%nat) * l 0%nat 0%nat + (u 0%nat * i 0%nat 1%nat + u 1%nat * i 1%nat 1%nat) * l 1%nat 0%nat)
    * ((v 0%nat * i 0%nat 0%nat + v 1%nat * i 1%nat 0%nat) * l 0%nat 0%nat + (v 0%nat * i 0%nat 1%nat + v 1%nat * i 1%nat 1%nat) * l 1%nat 0%nat)
    + ((u 0%nat * i 0%nat 0%nat + u 1%nat * i 1%nat 0%nat) * l 0%nat 1%nat + (u 0%nat * i 0%nat 1%nat + u 1%nat * i 1%nat 1%nat) * l 1%nat 1%nat)
    * ((v 0%nat * i 0%nat 0%nat + v 1%nat * i 1%nat 0%nat) * l 0%nat 1%nat + (v 0%nat * i 0%nat 1%nat + v 1%nat * i 1%nat 1%nat) * l 1%nat 1%nat))%R; [ring|].
  rewrite U0, U1, V0, V1. ring.
Qed.
