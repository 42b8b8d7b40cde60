(** Proofs about formulas with fixed effects. *)
From Coq Require Import List Bool Arith ZArith String Lia FunctionalExtensionality.
From Verif Require Import EffectsModel EffectsSpec.
Import ListNotations.
Local Open Scope list_scope.

Lemma all_some_iff {A} (l : list (option A)) r : all_some l = Some r <-> l = map Some r.
Proof.
  revert r. induction l as [|o l IH]; intros r; cbn.
  - destruct r; split; intros H; try discriminate; reflexivity.
  - destruct o as [a|].
    + destruct (all_some l) as [r'|] eqn:E.
      * split; intros H.
        -- injection H as <-. cbn. f_equal. apply IH. reflexivity.
        -- destruct r as [|b r]; [discriminate|]. cbn in H. injection H as -> H. apply IH in H. injection H as ->. reflexivity.
      * split; intros H; [discriminate|]. destruct r as [|b r]; [discriminate|]. cbn in H. injection H as -> H. apply IH in H. discriminate.
    + split; intros H; [discriminate|]. destruct r; discriminate.
Qed.

Lemma filter_in_nil {A} (f : A -> bool) l : filter f l = [] -> forall x, In x l -> f x = false.
Proof.
  intros H x I. destruct (f x) eqn:E; [|reflexivity]. assert (Q : In x (filter f l)) by (apply filter_In; auto). rewrite H in Q. destruct Q.
Qed.

(** ** Formulas *)

Definition without_intercept (l : list term) := filter (fun t => negb (is_intercept t)) l.

Lemma constant_spec : constant = without_variables.
Proof.
  apply functional_extensionality. intros t. unfold constant, without_variables, names.
  induction t as [|f t IH]; [reflexivity|]. cbn [flat_map forallb]. destruct f as [v|v|[|v vs]]; cbn; try reflexivity. exact IH.
Qed.
Lemma configured formula absorb f : configure formula absorb = Some f ->
  f_absorbed f = match absorb with Some a => without_intercept a | None => [] end /\
  f_terms f = (match f_absorbed f with [] => formula | _ => without_intercept formula end) /\
  f_terms f <> [] /\ (List.length (filter constant (f_terms f)) <= 1)%nat /\
  (forall t, In t (f_absorbed f) -> constant t = false) /\
  (f_absorbed f <> [] -> ~ In intercept (f_terms f)).
Proof.
  unfold configure. set (a := match absorb with Some a => _ | None => _ end). fold (without_intercept formula).
  set (t := match a with [] => formula | _ => _ end). intros H.
  destruct t as [|t0 ts] eqn:T; [discriminate|].
  destruct (Nat.ltb_spec 1 (List.length (filter constant (t0 :: ts)))) as [L|L]; [discriminate|].
  destruct (existsb constant a) eqn:X; [discriminate|]. injection H as <-. cbn [f_terms f_absorbed].
  split; [reflexivity|]. split; [rewrite <- T; reflexivity|]. split; [discriminate|]. split; [exact L|].
  split.
  - intros u I. destruct (constant u) eqn:C; [|reflexivity]. assert (existsb constant a = true) by (apply existsb_exists; exists u; auto). congruence.
  - intros N I. rewrite <- T in I. unfold t in I. destruct a; [contradiction|]. apply filter_In in I. destruct I as [_ I]. discriminate.
Qed.

Lemma configures formula absorb :
  let a := match absorb with Some a => without_intercept a | None => [] end in
  let t := match a with [] => formula | _ => without_intercept formula end in
  t <> [] -> (List.length (filter constant t) <= 1)%nat -> (forall u, In u a -> constant u = false) ->
  configure formula absorb = Some (mk_formulation t a).
Proof.
  cbv zeta. unfold configure. fold (without_intercept formula). set (a := match absorb with Some a => _ | None => _ end).
  change (match absorb with Some a0 => without_intercept a0 | None => [] end) with a.
  set (t := match a with [] => formula | _ => _ end). intros N L C. destruct t as [|t0 ts] eqn:T; [contradiction|].
  destruct (Nat.ltb_spec 1 (List.length (filter constant (t0 :: ts)))) as [L'|L']; [lia|].
  destruct (existsb constant a) eqn:X; [|reflexivity]. apply existsb_exists in X. destruct X as [u [I E]]. rewrite (C u I) in E. discriminate.
Qed.

(** ** IDs *)

Lemma factor_column_iff d N f c : List.length c = N ->
  (factor_column d f = Some c <-> exists v k, d v = Some k /\ cells k = c /\ (f = Marked v \/ f = Plain v /\ categorical k = true)).
Proof.
  intros L. split.
  - destruct f as [v|v|vs]; cbn; [|destruct (d v) as [k|] eqn:D|discriminate].
    + destruct (d v) as [k|] eqn:D; [|discriminate]. destruct (categorical k) eqn:K; [|discriminate]. intros H. injection H as <-.
      exists v, k. auto 6.
    + intros H. injection H as <-. exists v, k. auto.
    + discriminate.
  - intros [v [k [D [<- [->|[-> K]]]]]]; cbn; rewrite D; [reflexivity|rewrite K; reflexivity].
Qed.

Lemma zip_rows columns : forall n, (forall c, In c columns -> List.length c = n) ->
  zip columns n = map (fun k => map (fun c => nth k c 0%Z) columns) (seq 0 n).
Proof.
  intros n. revert columns. induction n as [|n IH]; intros columns L; [reflexivity|]. cbn [zip].
  assert (E : all_some (map (@hd_error Z) columns) = Some (map (fun c => nth 0 c 0%Z) columns)).
  { apply all_some_iff. rewrite map_map. apply map_ext_in. intros c I. specialize (L c I). destruct c; [discriminate|reflexivity]. }
  rewrite E. cbn [seq map]. f_equal. rewrite IH.
  - rewrite <- seq_shift, map_map. apply map_ext_in. intros k _. rewrite map_map. apply map_ext_in. intros c I. specialize (L c I).
    destruct c; [discriminate|reflexivity].
  - intros c I. apply in_map_iff in I. destruct I as [c' [<- I]]. specialize (L c' I). destruct c'; [discriminate|]. cbn in *. lia.
Qed.

Lemma zip_length columns n : (List.length (zip columns n) <= n)%nat /\
  (forall c, In c columns -> (List.length (zip columns n) <= List.length c)%nat).
Proof.
  revert columns. induction n as [|n IH]; intros columns; cbn; [split; [lia|intros; lia]|].
  destruct (all_some (map (@hd_error Z) columns)) as [row|] eqn:E; cbn; [|split; [lia|intros; lia]].
  destruct (IH (map (@tl Z) columns)) as [A B]. split; [lia|]. intros c I. specialize (B (tl c) (in_map _ _ _ I)).
  apply all_some_iff in E. assert (H : In (hd_error c) (map Some row)) by (rewrite <- E; apply in_map; exact I).
  apply in_map_iff in H. destruct H as [x [H _]]. destruct c as [|z c]; [discriminate|]. cbn in *. lia.
Qed.

(** Columns that are longer than the first one are cut. *)
Lemma zip_prefix columns : forall n, (forall c, In c columns -> (n <= List.length c)%nat) ->
  zip columns n = map (fun k => map (fun c => nth k c 0%Z) columns) (seq 0 n).
Proof.
  intros n. revert columns. induction n as [|n IH]; intros columns L; [reflexivity|]. cbn [zip].
  assert (E : all_some (map (@hd_error Z) columns) = Some (map (fun c => nth 0 c 0%Z) columns)).
  { apply all_some_iff. rewrite map_map. apply map_ext_in. intros c I. specialize (L c I). destruct c; cbn in L; [lia|reflexivity]. }
  rewrite E. cbn [seq map]. f_equal. rewrite IH.
  - rewrite <- seq_shift, map_map. apply map_ext_in. intros k _. rewrite map_map. apply map_ext_in. intros c I. specialize (L c I).
    destruct c; cbn in L; [lia|reflexivity].
  - intros c I. apply in_map_iff in I. destruct I as [c' [<- I]]. specialize (L c' I). destruct c'; cbn in *; lia.
Qed.

Lemma nth_value d v c n : d v = Some c -> (n < List.length (cells c))%nat -> value_at d v n = Some (nth n (cells c) 0%Z).
Proof.
  intros D L. unfold value_at. rewrite D. apply nth_error_nth'. exact L.
Qed.

Lemma columns_of d N t : t <> [] -> (forall f, In f t -> absorbable d N f) ->
  exists columns, all_some (map (factor_column d) t) = Some columns /\ columns <> [] /\ (forall c, In c columns -> List.length c = N) /\
  (forall n m, (n < N)%nat -> (m < N)%nat -> (map (fun c => nth n c 0%Z) columns = map (fun c => nth m c 0%Z) columns <-> same_effect d t n m)).
Proof.
  intros T H. assert (G : exists columns, all_some (map (factor_column d) t) = Some columns /\ List.length columns = List.length t /\
    (forall c, In c columns -> List.length c = N) /\
    (forall n m, (n < N)%nat -> (m < N)%nat -> (map (fun c => nth n c 0%Z) columns = map (fun c => nth m c 0%Z) columns <-> same_effect d t n m))).
  { clear T. induction t as [|f t IH].
    - exists []. split; [reflexivity|]. split; [reflexivity|]. split; [intros c I; destruct I|]. intros n m _ _. split; [intros _ v I; destruct I|reflexivity].
    - destruct IH as [cs [E [L0 [L S1]]]]; [intros g I; apply H; right; exact I|].
      destruct (H f (or_introl eq_refl)) as [v [k [D [Lk F]]]].
      assert (C : factor_column d f = Some (cells k)) by (apply (factor_column_iff d N); [exact Lk|exists v, k; auto]).
      assert (Nm : factor_names f = [v]) by (destruct F as [->|[-> _]]; reflexivity).
      exists (cells k :: cs). cbn [map all_some]. rewrite C, E. split; [reflexivity|]. split; [cbn; lia|]. split.
      { intros c [<-|I]; [exact Lk|apply L; exact I]. }
      intros n m Hn Hm. unfold same_effect, names. cbn [flat_map]. rewrite Nm. cbn [app]. split.
      + intros Q. injection Q as Q1 Q2. intros u [<-|I].
        * rewrite !(nth_value d v k) by (try exact D; lia). rewrite Q1. reflexivity.
        * apply (proj1 (S1 n m Hn Hm) Q2). exact I.
      + intros Q. f_equal.
        * specialize (Q v (or_introl eq_refl)). rewrite !(nth_value d v k) in Q by (try exact D; lia). injection Q as Q. exact Q.
        * apply (S1 n m Hn Hm). intros u I. apply Q. right. exact I. }
  destruct G as [cs [E [L0 [L S1]]]]. exists cs. split; [exact E|]. split; [destruct t; [contradiction|]; destruct cs; [discriminate|discriminate]|]. auto.
Qed.

Lemma term_ids_some d N t : t <> [] -> (forall f, In f t -> absorbable d N f) ->
  exists ids, term_ids d t = Some ids /\ List.length ids = N /\
  (forall n m, (n < N)%nat -> (m < N)%nat -> (nth n ids [] = nth m ids [] <-> same_effect d t n m)).
Proof.
  intros T H. destruct (columns_of d N t T H) as [cs [E [C [L S1]]]]. unfold term_ids. rewrite E. unfold interact_ids.
  destruct cs as [|c cs]; [contradiction|]. assert (Lc : List.length c = N) by (apply L; left; reflexivity).
  rewrite Lc, zip_rows by exact L. rewrite map_length, seq_length, Nat.eqb_refl. eexists. split; [reflexivity|].
  split; [rewrite map_length, seq_length; reflexivity|]. intros n m Hn Hm.
  rewrite !(nth_indep (map _ (seq 0 N)) [] (map (fun c0 => nth 0 c0 0%Z) (c :: cs))) by (rewrite map_length, seq_length; assumption).
  rewrite !(map_nth (fun k => map (fun c0 => nth k c0 0%Z) (c :: cs)) (seq 0 N) 0%nat), !seq_nth by assumption. apply S1; assumption.
Qed.

Lemma ids_built d N f : f_absorbed f <> [] -> (forall t, In t (f_absorbed f) -> t <> []) ->
  (forall t, In t (f_absorbed f) -> forall g, In g t -> absorbable d N g) ->
  exists ids, build_ids d f = Some ids /\ List.length ids = List.length (f_absorbed f) /\
  (forall k, (k < List.length ids)%nat -> List.length (nth k ids []) = N /\
   forall n m, (n < N)%nat -> (m < N)%nat ->
   (nth n (nth k ids []) [] = nth m (nth k ids []) [] <-> same_effect d (nth k (f_absorbed f) []) n m)).
Proof.
  intros A0 T H. unfold build_ids.
  assert (G : exists ids, all_some (map (term_ids d) (f_absorbed f)) = Some ids /\ List.length ids = List.length (f_absorbed f) /\
    (forall k, (k < List.length ids)%nat -> List.length (nth k ids []) = N /\
     forall n m, (n < N)%nat -> (m < N)%nat ->
     (nth n (nth k ids []) [] = nth m (nth k ids []) [] <-> same_effect d (nth k (f_absorbed f) []) n m))).
  { clear A0. induction (f_absorbed f) as [|t ts IH].
    - exists []. split; [reflexivity|]. split; [reflexivity|]. intros k Hk. cbn in Hk. lia.
    - destruct IH as [ids [E [L Q]]]; [intros u I; apply T; right; exact I|intros u I; apply H; right; exact I|].
      destruct (term_ids_some d N t (T t (or_introl eq_refl)) (H t (or_introl eq_refl))) as [i [Ei [Li Qi]]].
      exists (i :: ids). cbn [map all_some]. rewrite Ei, E. split; [reflexivity|]. split; [cbn; lia|].
      intros [|k] Hk; cbn [nth]; [split; assumption|]. apply Q. cbn in Hk. lia. }
  destruct G as [ids [E [L Q]]]. rewrite E. destruct ids as [|i ids]; [destruct (f_absorbed f); [contradiction|discriminate]|].
  assert (B : forallb (fun c' => Nat.eqb (List.length c') (List.length i)) ids = true).
  { apply forallb_forall. intros c I. destruct (In_nth ids c [] I) as [k [Hk Ek]].
    destruct (Q (S k) ltac:(cbn; lia)) as [Q1 _]. destruct (Q 0%nat ltac:(cbn; lia)) as [Q0 _]. cbn in Q1, Q0. rewrite Ek in Q1. rewrite Q1, Q0. apply Nat.eqb_refl. }
  rewrite B. exists (i :: ids). auto.
Qed.

(** Only categorical variables. *)
Lemma ids_categorical d f ids : build_ids d f = Some ids ->
  forall t g, In t (f_absorbed f) -> In g t -> exists v c, d v = Some c /\ (g = Marked v \/ g = Plain v /\ categorical c = true).
Proof.
  unfold build_ids. destruct (all_some (map (term_ids d) (f_absorbed f))) as [cs|] eqn:E; [|discriminate]. intros _ t g I J.
  apply all_some_iff in E. assert (X : In (term_ids d t) (map Some cs)) by (rewrite <- E; apply in_map; exact I).
  apply in_map_iff in X. destruct X as [c [X _]]. unfold term_ids in X.
  destruct (all_some (map (factor_column d) t)) as [columns|] eqn:E'; [|discriminate].
  apply all_some_iff in E'. assert (Y : In (factor_column d g) (map Some columns)) by (rewrite <- E'; apply in_map; exact J).
  apply in_map_iff in Y. destruct Y as [c' [Y _]]. symmetry in Y. apply (factor_column_iff d _ g c' eq_refl) in Y.
  destruct Y as [v [k [D [_ F]]]]. exists v, k. auto.
Qed.

(** Rows of all variables, unless a variable has only one. *)
Lemma ids_lengths columns ids : interact_ids columns = Some ids ->
  forall first, hd_error columns = Some first ->
  List.length ids = List.length first /\
  ((forall c, In c columns -> (List.length first <= List.length c)%nat) \/ exists c, In c columns /\ List.length c = 1%nat /\ ids = repeat (nth 0 ids []) (List.length first)).
Proof.
  unfold interact_ids. destruct columns as [|c cs]; [discriminate|]. intros H first F. injection F as <-.
  destruct (zip_length (c :: cs) (List.length c)) as [_ Z].
  destruct (Nat.eqb_spec (List.length (zip (c :: cs) (List.length c))) (List.length c)) as [e|N].
  - injection H as <-. split; [exact e|]. left. intros c' I. specialize (Z c' I). lia.
  - destruct (zip (c :: cs) (List.length c)) as [|row [|row' rows]] eqn:E; try discriminate. injection H as <-. split; [apply repeat_length|].
    destruct (Forall_dec (fun c' => (List.length c <= List.length c')%nat) (fun c' => le_dec _ _) (c :: cs)) as [A|A].
    { exfalso. apply N. rewrite <- E. rewrite zip_prefix by (apply Forall_forall; exact A). rewrite map_length, seq_length. reflexivity. }
    right. assert (X : exists c', In c' (c :: cs) /\ List.length c' = 1%nat).
    { assert (G : forall n cols, zip cols n <> [] -> List.length (zip cols n) = 1%nat -> (1 < n)%nat -> exists c', In c' cols /\ List.length c' = 1%nat).
      { clear. intros n cols _ L Hn. destruct n as [|[|n]]; [lia|lia|]. cbn [zip] in L.
        destruct (all_some (map (@hd_error Z) cols)) as [row|] eqn:E1; [|discriminate].
        destruct (all_some (map (@hd_error Z) (map (@tl Z) cols))) as [row'|] eqn:E2; [discriminate|].
        apply all_some_iff in E1.
        assert (Q : exists c', In c' cols /\ tl c' = []).
        { clear -E2. induction cols as [|c cs IH]; [discriminate|]. cbn [map all_some] in E2.
          destruct (tl c) as [|z l] eqn:T; [exists c; split; [left; reflexivity|exact T]|]. cbn in E2.
          destruct (all_some (map (@hd_error Z) (map (@tl Z) cs))); [discriminate|]. destruct (IH eq_refl) as [c' [I Q]]. exists c'. split; [right; exact I|exact Q]. }
        destruct Q as [c' [I Q]]. exists c'. split; [exact I|].
        assert (H : In (hd_error c') (map Some row)) by (rewrite <- E1; apply in_map; exact I).
        apply in_map_iff in H. destruct H as [x [H _]]. destruct c' as [|z [|z' c']]; [discriminate|reflexivity|discriminate]. }
      apply (G (List.length c)); rewrite ?E; [discriminate|reflexivity|].
      destruct (zip_length (c :: cs) (List.length c)) as [Z1 _]. rewrite E in Z1. cbn in Z1, N. lia. }
    destruct X as [c' [I L]]. exists c'. split; [exact I|]. split; [exact L|].
    assert (0 < List.length c)%nat. { destruct (zip_length (c :: cs) (List.length c)) as [Z1 _]. rewrite E in Z1. cbn in Z1. lia. }
    destruct (List.length c); [lia|]. reflexivity.
Qed.
