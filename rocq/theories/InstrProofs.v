(** Proofs about instruments. *)
From Coq Require Import Reals Lra Lia List Bool Arith ZArith Ascii String Sorted FinFun FunctionalExtensionality.
From Verif Require Import FltModel FormModel FormSpec FormProofs ParamsModel ParamsSpec ParamsProofs BasicsModel BasicsSpec BasicsProofs ConstrModel ConstrSpec ConstrProofs InstrModel InstrSpec.
Import ListNotations.
Local Open Scope string_scope.
Local Open Scope list_scope.

Lemma mentions_in s e : mentions s e = true <-> In s (free e).
Proof.
  unfold mentions. rewrite existsb_exists. split.
  - intros [t [H E]]. apply String.eqb_eq in E. subst t. exact H.
  - intros H. exists s. split; [exact H|apply String.eqb_refl].
Qed.
Lemma mentions_not s e : mentions s e = false <-> ~ In s (free e).
Proof. rewrite <- mentions_in. destruct (mentions s e); split; intro H; try congruence; try discriminate. Qed.
Lemma mentioned_in s X : mentioned s X = true <-> exists e, In e X /\ In s (free e).
Proof.
  unfold mentioned. rewrite existsb_exists. split; intros [e [H E]]; exists e; (split; [exact H|]); apply mentions_in; exact E.
Qed.
Lemma mentioned_not s X : mentioned s X = false <-> without s X.
Proof.
  split.
  - intros H e He Hs. enough (mentioned s X = true) by congruence. apply mentioned_in. eauto.
  - intros H. destruct (mentioned s X) eqn:E; [|reflexivity]. apply mentioned_in in E. destruct E as [e [He Hs]]. destruct (H e He Hs).
Qed.

Lemma evaluate_same look look' e : (forall s, In s (free e) -> look s = look' s) -> evaluate look e = evaluate look' e.
Proof.
  induction e as [c|s|a IHa b IHb|a IHa b IHb|a IHa n|a IHa|a IHa]; cbn [free evaluate]; intros H.
  - reflexivity.
  - apply H. left. reflexivity.
  - rewrite IHa, IHb; [reflexivity|intros; apply H, in_or_app; auto|intros; apply H, in_or_app; auto].
  - rewrite IHa, IHb; [reflexivity|intros; apply H, in_or_app; auto|intros; apply H, in_or_app; auto].
  - rewrite IHa; [reflexivity|exact H].
  - rewrite IHa; [reflexivity|exact H].
  - rewrite IHa; [reflexivity|exact H].
Qed.
Lemma column_same d d' e : (forall n s, In s (free e) -> d n s = d' n s) -> column_of d e = column_of d' e.
Proof. intros H. apply functional_extensionality. intro n. unfold column_of. apply evaluate_same. intros s Hs. rewrite (H n s Hs). reflexivity. Qed.
Lemma outcome_same d p q e : ~ In "prices" (free e) -> ~ In "shares" (free e) -> column_of (other_outcome d p q) e = column_of d e.
Proof.
  intros A B. apply column_same. intros n s H. unfold other_outcome.
  destruct (String.eqb s "prices") eqn:E; [apply String.eqb_eq in E; subst; contradiction|].
  destruct (String.eqb s "shares") eqn:F; [apply String.eqb_eq in F; subst; contradiction|]. reflexivity.
Qed.
Lemma map_same {A B} (f g : A -> B) l : (forall x, In x l -> f x = g x) -> map f l = map g l.
Proof. apply map_ext_in. Qed.

(* ---------- Products ---------- *)

Lemma supplement_columns s d X : forall Z, all_columns (supplement s d X Z) =
  all_columns Z ++ map (column_of d) (filter (fun e => negb (mentions s e)) X).
Proof.
  induction X as [|e X IH]; intros Z; cbn [supplement fold_left filter map]; [rewrite app_nil_r; reflexivity|].
  fold (supplement s d X). destruct (mentions s e); cbn [negb].
  - apply IH.
  - change (fold_left _ X ?z) with (supplement s d X z). rewrite IH. destruct Z as [l|]; cbn [all_columns map app]; [rewrite <- app_assoc|]; reflexivity.
Qed.
Lemma supplement_outcome s d p q X : without (if String.eqb s "prices" then "shares" else "prices") X -> s = "prices" \/ s = "shares" ->
  forall Z, supplement s (other_outcome d p q) X Z = supplement s d X Z.
Proof.
  intros W S. induction X as [|e X IH]; intros Z; [reflexivity|]. cbn [supplement fold_left].
  assert (IH' := IH (fun e' H' => W e' (or_intror H'))). unfold supplement in IH'.
  destruct (mentions s e) eqn:M; [apply IH'|]. apply mentions_not in M.
  assert (E : column_of (other_outcome d p q) e = column_of d e).
  { assert (W' := W e (or_introl eq_refl)). destruct S as [->| ->]; cbn in W'; apply outcome_same; assumption. }
  rewrite E. apply IH'.
Qed.

Definition kept (s : string) (X : list expr) : list nat :=
  filter (fun k => negb (mentions s (nth k X (Const 0)))) (seq 0 (List.length X)).
Lemma sorted_seq n m : StronglySorted lt (seq n m).
Proof.
  revert n. induction m as [|m IH]; intro n; cbn [seq]; constructor; [apply IH|]. apply Forall_forall. intros k H. apply in_seq in H. lia.
Qed.
Lemma sorted_filter f l : StronglySorted lt l -> StronglySorted lt (filter f l).
Proof.
  induction 1 as [|k l S IH F]; cbn [filter]; [constructor|]. destruct (f k); [|exact IH]. constructor; [exact IH|].
  apply Forall_forall. intros x Hx. apply filter_In in Hx. rewrite Forall_forall in F. apply F. tauto.
Qed.
Lemma kept_positions s X : positions (fun k => exists e, nth_error X k = Some e /\ ~ In s (free e)) (kept s X).
Proof.
  split; [apply sorted_filter, sorted_seq|]. intro k. unfold kept. rewrite filter_In, in_seq, negb_true_iff, mentions_not. split.
  - intros [L N]. exists (nth k X (Const 0)). split; [apply nth_error_nth'; lia|exact N].
  - intros [e [E N]]. assert (L : k < List.length X) by (apply nth_error_Some; rewrite E; discriminate). split; [lia|].
    rewrite (nth_error_nth _ _ _ E). exact N.
Qed.
Lemma kept_columns {A} (f : expr -> A) s X :
  map f (filter (fun e => negb (mentions s e)) X) = map (fun k => f (nth k X (Const 0))) (kept s X).
Proof.
  unfold kept. rewrite <- (map_map (fun k => nth k X (Const 0)) f). f_equal.
  induction X as [|e X IH]; [reflexivity|]. cbn [filter List.length seq].
  rewrite <- seq_shift. change (nth 0 (e :: X) (Const 0)) with e. assert (E : forall l, filter (fun k => negb (mentions s (nth k (e :: X) (Const 0)))) (map S l)
    = map S (filter (fun k => negb (mentions s (nth k X (Const 0)))) l)).
  { induction l as [|k l IHl]; [reflexivity|]. cbn [map filter]. rewrite IHl. change (nth (S k) (e :: X) (Const 0)) with (nth k X (Const 0)). destruct (negb _); reflexivity. }
  rewrite E. destruct (negb (mentions s e)); cbn [map nth]; rewrite IH, ?map_map; reflexivity.
Qed.

Section Products.
  Variables (X1 X2 X3 : option formula) (d : dataset) (is_finite : column -> bool).
  Variables (demand supply covariance : option (list column)) (instruments add_exogenous : bool).
  Notation made d := (products X1 X2 X3 d is_finite demand supply covariance instruments add_exogenous).

  Definition ZD_of (d : dataset) f1 := if instruments then if add_exogenous then supplement "prices" d (columns f1) demand else demand else None.
  Definition ZS_of (d : dataset) := match X3 with
    | Some f3 => if instruments then if add_exogenous then supplement "shares" d (columns f3) supply else supply else None | None => None end.
  Definition ZC_of := match X3 with Some _ => if instruments then covariance else None | None => None end.
  Record acceptable (d : dataset) f1 : Prop := {
    acc_X1 : X1 = Some f1;
    acc_X2 : forall f2, X2 = Some f2 -> absorbs f2 = false;
    acc_shares : without "shares" (columns f1 ++ columns_of X2);
    acc_prices : exists e, In e (columns f1 ++ columns_of X2) /\ In "prices" (free e);
    acc_supply : without "prices" (columns_of X3);
    acc_finite : forall e, In e (columns f1 ++ columns_of X2 ++ columns_of X3) -> is_finite (column_of d e) = true;
    acc_ZD : instruments = true -> forall c, In c (all_columns demand) -> is_finite c = true;
    acc_ZS : instruments = true -> X3 <> None -> forall c, In c (all_columns supply ++ all_columns covariance) -> is_finite c = true;
    acc_names : forall e s, In e (columns f1 ++ columns_of X2 ++ columns_of X3) -> In s (free e) -> In s reserved -> s = "shares"
  }.
  Lemma finite_field_iff o : finite_field is_finite o = true <-> forall c, In c (all_columns o) -> is_finite c = true.
  Proof. destruct o as [l|]; cbn; [unfold finite_columns; apply forallb_forall|split; [contradiction|reflexivity]]. Qed.
  Lemma finite_X_iff f : finite_X d is_finite f = true <-> forall e, In e (columns_of f) -> is_finite (column_of d e) = true.
  Proof.
    unfold finite_X, finite_columns. rewrite forallb_forall. split.
    - intros H e He. apply H. apply in_map. exact He.
    - intros H c Hc. apply in_map_iff in Hc. destruct Hc as [e [<- He]]. auto.
  Qed.
  Lemma without_app s A B : without s (A ++ B) <-> without s A /\ without s B.
  Proof.
    unfold without. split; [intros H; split; intros e He; apply H, in_or_app; auto|]. intros [H1 H2] e He. apply in_app_or in He. destruct He; auto.
  Qed.
  Lemma accepted_iff p : made d = inr p <-> exists f1, acceptable d f1 /\ p = Fields (ZD_of d f1) (ZS_of d) ZC_of.
  Proof.
    unfold products. split.
    - destruct X1 as [f1|] eqn:E1; [|discriminate].
      destruct (match X2 with Some f2 => absorbs f2 | None => false end) eqn:E2; [discriminate|].
      destruct (mentioned "shares" (columns f1)) eqn:S1; [discriminate|].
      destruct (finite_X d is_finite (Some f1)) eqn:F1; cbn [negb]; [|discriminate].
      destruct (mentioned "shares" (columns_of X2)) eqn:S2; [discriminate|].
      destruct (finite_X d is_finite X2) eqn:F2; cbn [negb]; [|discriminate].
      destruct (negb (mentioned "prices" (columns f1)) && negb (mentioned "prices" (columns_of X2))) eqn:P; [discriminate|].
      destruct (mentioned "prices" (columns_of X3)) eqn:P3; [discriminate|].
      destruct (finite_X d is_finite X3) eqn:F3; cbn [negb]; [|discriminate].
      intro H. exists f1.
      assert (FD : instruments = true -> finite_field is_finite demand = true).
      { intros ->. destruct (finite_field is_finite demand); [reflexivity|discriminate]. }
      assert (FS : instruments = true -> X3 <> None -> finite_field is_finite supply = true /\ finite_field is_finite covariance = true).
      { intros -> N. destruct X3; [|congruence]. rewrite (FD eq_refl) in H. cbn [negb] in H.
        destruct (finite_field is_finite supply); [|discriminate]. destruct (finite_field is_finite covariance); [auto|discriminate]. }
      assert (Q : (if existsb (fun s => negb (String.eqb s "shares") && mem s reserved) (flat_map free (columns f1 ++ columns_of X2 ++ columns_of X3))
                   then inl ReservedNames else inr (Fields (ZD_of d f1) (ZS_of d) ZC_of)) = inr p).
      { rewrite <- H. unfold ZD_of, ZS_of, ZC_of. destruct instruments eqn:I.
        - rewrite (FD eq_refl). cbn [negb]. destruct X3 as [f3|]; [|reflexivity].
          destruct (FS eq_refl ltac:(discriminate)) as [-> ->]. reflexivity.
        - destruct X3; reflexivity. }
      clear H. destruct (existsb _ _) eqn:RN in Q; [discriminate|]. injection Q as <-. split; [|reflexivity].
      constructor.
      + exact E1.
      + intros f2 ->. exact E2.
      + apply without_app. split; apply mentioned_not; assumption.
      + apply andb_false_iff in P. rewrite !negb_false_iff in P. destruct P as [P|P]; apply mentioned_in in P; destruct P as [e [He Hp]];
          exists e; (split; [apply in_or_app; auto|exact Hp]).
      + apply mentioned_not. exact P3.
      + intros e He. apply in_app_or in He. destruct He as [He|He]; [exact (proj1 (finite_X_iff (Some f1)) F1 e He)|].
        apply in_app_or in He. destruct He as [He|He]; [exact (proj1 (finite_X_iff X2) F2 e He)|exact (proj1 (finite_X_iff X3) F3 e He)].
      + intros I. apply finite_field_iff. auto.
      + intros I N c Hc. destruct (FS I N) as [A B]. apply in_app_or in Hc. rewrite finite_field_iff in A, B. destruct Hc; auto.
      + intros e s He Hs Hr. destruct (String.eqb s "shares") eqn:Es; [apply String.eqb_eq; exact Es|]. exfalso.
        enough (T : existsb (fun s => negb (String.eqb s "shares") && mem s reserved) (flat_map free (columns f1 ++ columns_of X2 ++ columns_of X3)) = true) by congruence.
        apply existsb_exists. exists s. split; [apply in_flat_map; eauto|]. rewrite Es. cbn [negb andb]. apply mem_in. exact Hr.
    - intros [f1 [A ->]]. destruct A as [-> A2 AS AP A3 AF AD AZ AN]. apply without_app in AS. destruct AS as [S1 S2].
      apply mentioned_not in S1, S2, A3. rewrite S1, S2, A3.
      assert (E2 : match X2 with Some f2 => absorbs f2 | None => false end = false) by (destruct X2; auto). rewrite E2.
      assert (F1 : finite_X d is_finite (Some f1) = true) by (apply finite_X_iff; intros e He; apply AF, in_or_app; auto).
      assert (F2 : finite_X d is_finite X2 = true) by (apply finite_X_iff; intros e He; apply AF, in_or_app; right; apply in_or_app; auto).
      assert (F3 : finite_X d is_finite X3 = true) by (apply finite_X_iff; intros e He; apply AF, in_or_app; right; apply in_or_app; auto).
      rewrite F1, F2, F3. cbn [negb].
      assert (P : negb (mentioned "prices" (columns f1)) && negb (mentioned "prices" (columns_of X2)) = false).
      { apply andb_false_iff. rewrite !negb_false_iff. destruct AP as [e [He Hp]]. apply in_app_or in He.
        destruct He; [left|right]; apply mentioned_in; eauto. }
      rewrite P.
      assert (RN : existsb (fun s => negb (String.eqb s "shares") && mem s reserved) (flat_map free (columns f1 ++ columns_of X2 ++ columns_of X3)) = false).
      { destruct (existsb _ _) eqn:E; [|reflexivity]. apply existsb_exists in E. destruct E as [s [Hs E]]. apply in_flat_map in Hs.
        destruct Hs as [e [He Hs]]. apply andb_true_iff in E. destruct E as [N M]. apply mem_in in M. rewrite (AN e s He Hs M) in N. discriminate. }
      rewrite RN. unfold ZD_of, ZS_of, ZC_of. destruct instruments eqn:I.
      + assert (FD : finite_field is_finite demand = true) by (apply finite_field_iff; auto). rewrite FD. cbn [negb].
        destruct X3 as [f3|]; [|reflexivity].
        assert (FS : finite_field is_finite supply = true) by (apply finite_field_iff; intros c Hc; apply AZ; [reflexivity|discriminate|apply in_or_app; auto]).
        assert (FC : finite_field is_finite covariance = true) by (apply finite_field_iff; intros c Hc; apply AZ; [reflexivity|discriminate|apply in_or_app; auto]).
        rewrite FS, FC. reflexivity.
      + destruct X3; reflexivity.
  Qed.
End Products.

(* ---------- Outcomes of markets do not change instruments ---------- *)

Section Exogenous.
  Variables (X1 X2 X3 : option formula) (is_finite : column -> bool).
  Variables (demand supply covariance : option (list column)) (instruments add_exogenous : bool).
  Notation made d := (products X1 X2 X3 d is_finite demand supply covariance instruments add_exogenous).

  Lemma products_outcome d p q r r' : made d = inr r -> made (other_outcome d p q) = inr r' -> r' = r.
  Proof.
    intros H H'. apply accepted_iff in H. apply accepted_iff in H'. destruct H as [f1 [A ->]]. destruct H' as [f1' [A' ->]].
    assert (f1' = f1) by (destruct A as [A _ _ _ _ _ _ _ _]; destruct A' as [A' _ _ _ _ _ _ _ _]; congruence). subst f1'.
    assert (W := acc_shares _ _ _ _ _ _ _ _ _ _ A). apply without_app in W. destruct W as [W _].
    assert (V := acc_supply _ _ _ _ _ _ _ _ _ _ A). f_equal.
    - unfold ZD_of. rewrite supplement_outcome; [reflexivity|exact W|left; reflexivity].
    - unfold ZS_of. destruct X3 as [f3|]; [|reflexivity]. rewrite supplement_outcome; [reflexivity|exact V|right; reflexivity].
  Qed.
  Lemma products_ZD d r f1 : made d = inr r -> X1 = Some f1 -> instruments = true -> add_exogenous = true ->
    exists l, positions (fun k => exists e, nth_error (columns f1) k = Some e /\ ~ In "prices" (free e)) l /\
      all_columns (ZD r) = all_columns demand ++ map (fun k => column_of d (nth k (columns f1) (Const 0))) l.
  Proof.
    intros H E -> ->. apply accepted_iff in H. destruct H as [f1' [A ->]].
    assert (f1' = f1) by (destruct A as [A _ _ _ _ _ _ _ _]; congruence). subst f1'.
    exists (kept "prices" (columns f1)). split; [apply kept_positions|]. cbn [ZD ZD_of]. rewrite supplement_columns, kept_columns. reflexivity.
  Qed.
  Lemma products_ZS d r f3 : made d = inr r -> X3 = Some f3 -> instruments = true -> add_exogenous = true ->
    exists l, positions (fun k => exists e, nth_error (columns f3) k = Some e /\ ~ In "shares" (free e)) l /\
      all_columns (ZS r) = all_columns supply ++ map (fun k => column_of d (nth k (columns f3) (Const 0))) l.
  Proof.
    intros H E -> ->. apply accepted_iff in H. destruct H as [f1' [A ->]].
    exists (kept "shares" (columns f3)). split; [apply kept_positions|]. cbn [ZS]. unfold ZS_of. rewrite E. rewrite supplement_columns, kept_columns. reflexivity.
  Qed.
End Exogenous.

(* ---------- Optimal instruments ---------- *)

Section Optimal.
  Variables (X1 X3 : list expr) (d : dataset) (ps : parameters) (demand_instruments supply_instruments : list column).
  Variables (expected_prices expected_shares : nat -> R) (supply_shifters demand_shifters : list column).
  Notation ZD d := (optimal_ZD X1 X3 d ps demand_instruments expected_prices supply_shifters).
  Notation ZS d := (optimal_ZS X1 X3 d ps supply_instruments expected_shares demand_shifters).

  Lemma eliminated_from k s X e : In e (eliminated_endogenous ps k s X) -> In e X.
  Proof.
    unfold eliminated_endogenous. rewrite in_map_iff. intros [[i e'] [<- H]]. apply filter_In in H. destruct H as [H _].
    apply in_combine_r in H. exact H.
  Qed.
  Lemma replaced_other s p q v e : (s = "prices" /\ ~ In "shares" (free e)) \/ (s = "shares" /\ ~ In "prices" (free e)) ->
    column_of (replaced (other_outcome d p q) s v) e = column_of (replaced d s v) e.
  Proof.
    intros H. apply column_same. intros n t Ht. unfold replaced, other_outcome.
    destruct (String.eqb t s) eqn:E; [reflexivity|].
    destruct (String.eqb t "prices") eqn:P; [apply String.eqb_eq in P; subst t|].
    - destruct H as [[-> _]|[_ N]]; [discriminate|contradiction].
    - destruct (String.eqb t "shares") eqn:S; [apply String.eqb_eq in S; subst t|reflexivity].
      destruct H as [[_ N]|[-> _]]; [contradiction|discriminate].
  Qed.
  Lemma optimal_ZD_outcome p q : without "shares" X1 -> ZD (other_outcome d p q) = ZD d.
  Proof.
    intros W. unfold optimal_ZD, optimal_demand. f_equal; [f_equal; f_equal|].
    - apply map_same. intros e He. apply eliminated_from in He. apply replaced_other. left. auto.
    - apply map_same. intros e He. apply filter_In in He. destruct He as [He N]. apply negb_true_iff, mentions_not in N. apply outcome_same; auto.
  Qed.
  Lemma optimal_ZS_outcome p q : without "prices" X3 -> without "shares" X3 -> ZS (other_outcome d p q) = ZS d.
  Proof.
    intros W V. unfold optimal_ZS, optimal_supply. f_equal; [f_equal; f_equal|].
    - apply map_same. intros e He. apply eliminated_from in He. apply replaced_other. right. auto.
    - apply map_same. intros e He. apply outcome_same; auto.
  Qed.
End Optimal.

(* ---------- The number of optimal instruments ---------- *)

Lemma same_length {A} (l m : list A) : NoDup l -> NoDup m -> (forall x, In x l <-> In x m) -> List.length l = List.length m.
Proof. intros N M H. apply Nat.le_antisymm; apply NoDup_incl_length; auto; intros x Hx; apply H; exact Hx. Qed.
Lemma filter_split {A} (f : A -> bool) l : List.length l = List.length (filter f l) + List.length (filter (fun x => negb (f x)) l).
Proof. induction l as [|x l IH]; [reflexivity|]. cbn [filter List.length]. destruct (f x); cbn [negb List.length]; lia. Qed.
Lemma filter_and {A} (f g : A -> bool) l : filter g (filter f l) = filter (fun x => f x && g x) l.
Proof. induction l as [|x l IH]; [reflexivity|]. cbn [filter]. destruct (f x); cbn [filter andb]; [destruct (g x)|]; rewrite IH; reflexivity. Qed.
Lemma combine_filter {A B} (f : A -> bool) (l : list A) : forall m : list B, List.length m = List.length l ->
  List.length (filter (fun p => f (fst p)) (combine l m)) = List.length (filter f l).
Proof.
  induction l as [|x l IH]; intros [|y m] H; try discriminate; [reflexivity|]. cbn [combine filter fst]. injection H as H.
  destruct (f x); cbn [List.length]; rewrite IH by exact H; reflexivity.
Qed.
Lemma enumerate_filter (g : nat -> expr -> bool) X : forall n,
  List.length (filter (fun ie => g (fst ie) (snd ie)) (combine (seq n (List.length X)) X)) =
  List.length (filter (fun k => g k (nth (k - n) X (Const 0))) (seq n (List.length X))).
Proof.
  induction X as [|e X IH]; intro n; [reflexivity|]. cbn [List.length seq combine filter fst snd]. rewrite Nat.sub_diag. cbn [nth].
  assert (E : filter (fun k => g k match k - n with 0 => e | S m => nth m X (Const 0) end) (seq (S n) (List.length X)) =
    filter (fun k => g k (nth (k - S n) X (Const 0))) (seq (S n) (List.length X))).
  { apply filter_ext_in. intros k Hk. apply in_seq in Hk. replace (k - n) with (S (k - S n)) by lia. reflexivity. }
  rewrite E. destruct (g n e); cbn [List.length]; rewrite IH; reflexivity.
Qed.

Section Count.
  Variables (X1 : list expr) (d : dataset) (ps : parameters) (demand_instruments : list column) (expected_prices : nat -> R).
  Variables (bounded : bool) (given : kind -> bool) (lo up : kind -> nat -> nat -> flt).
  Hypothesis ini : initialized bounded given ps lo up.
  Hypothesis square : ncols (mat ps Sigma) = nrows (mat ps Sigma).
  Hypothesis rows : nrows (mat ps Beta) = List.length X1.
  Hypothesis vector : ncols (mat ps Beta) = 1.
  Hypothesis no_gamma : nrows (mat ps Gamma) = 0.
  Hypothesis linear_demand : without "shares" X1.
  Let K := seq 0 (List.length X1).
  Let exogenous k := negb (mentions "prices" (nth k X1 (Const 0))).
  Let gone k := eliminated_index ps Beta k 0.
  Let known k := has_value lo up (Beta, (k, 0)).
  Let beta (k : nat) : parameter := (Beta, (k, 0)).

  Lemma beta_injective : forall k l, beta k = beta l -> k = l.
  Proof. unfold beta. intros k l H. congruence. Qed.
  Lemma entry_beta i j : is_entry (mat ps) Beta i j <-> In i K /\ j = 0.
  Proof. unfold is_entry, K. rewrite in_seq, rows, vector. split; [intros [A [B _]]; lia|intros [A ->]; repeat split; [lia|lia|discriminate]]. Qed.
  Lemma entry_gamma i j : ~ is_entry (mat ps) Gamma i j.
  Proof. unfold is_entry. rewrite no_gamma. lia. Qed.
  Lemma dropped_beta p : In p (unfixed ps) -> dropped X1 [] p = true -> exists k, p = beta k /\ In k K /\ exogenous k = true.
  Proof.
    destruct p as [k [i j]]. intros H. apply (unfixed_in0 _ _ _ _ _ ini square) in H. destruct H as [H _]. unfold dropped, coefficient_on.
    destruct k; try discriminate; [|destruct (entry_gamma _ _ H)].
    apply entry_beta in H. destruct H as [H ->]. assert (H' := H). apply in_seq in H'.
    rewrite (nth_error_nth' X1 (Const 0)) by lia. intro D. apply andb_true_iff in D. exists i. repeat split; tauto.
  Qed.
  Lemma beta_dropped k : In k K -> dropped X1 [] (beta k) = exogenous k.
  Proof.
    intros H. apply in_seq in H. unfold dropped, coefficient_on, beta. rewrite (nth_error_nth' X1 (Const 0)) by lia.
    assert (N : mentions "shares" (nth k X1 (Const 0)) = false) by (apply mentions_not, linear_demand, nth_In; lia).
    rewrite N. cbn [negb]. rewrite andb_true_r. reflexivity.
  Qed.
  Lemma nodup_K f : NoDup (map beta (filter f K)).
  Proof. apply Injective_map_NoDup; [exact beta_injective|]. apply NoDup_filter, seq_NoDup. Qed.

  Lemma count_dropped : List.length (filter (dropped X1 []) (unfixed ps)) =
    List.length (filter (fun k => exogenous k && (negb (gone k) && negb (known k))) K).
  Proof.
    rewrite <- (map_length beta). apply same_length; [apply NoDup_filter, (unfixed_nodup _ _ _ _ _ ini)|apply nodup_K|].
    intro p. rewrite filter_In, in_map_iff. split.
    - intros [H D]. destruct (dropped_beta p H D) as [k [-> [Hk E]]]. exists k. split; [reflexivity|]. apply filter_In. split; [exact Hk|].
      rewrite E. rewrite (ini_unfixed _ _ _ _ _ ini) in H. apply filter_In in H. exact (proj2 H).
    - intros [k [<- H]]. apply filter_In in H. destruct H as [Hk E]. apply andb_true_iff in E. destruct E as [E F].
      rewrite (beta_dropped k Hk). split; [|exact E]. rewrite (ini_unfixed _ _ _ _ _ ini). apply filter_In. split; [|exact F].
      apply all_in; [exact square|]. apply entry_beta. auto.
  Qed.
  Lemma count_eliminated : List.length (eliminated ps) = List.length (filter gone K).
  Proof.
    rewrite <- (map_length beta). apply same_length; [rewrite (ini_eliminated _ _ _ _ _ ini); apply NoDup_filter, all_nodup|apply nodup_K|].
    intros [k [i j]]. rewrite (eliminated_in _ _ _ _ _ ini square), in_map_iff. split.
    - intros [H G]. assert (G' := G). rewrite (ini_elim _ _ _ _ _ ini) in G'. destruct k; try discriminate; [|destruct (entry_gamma _ _ H)].
      apply entry_beta in H. destruct H as [H ->]. exists i. split; [reflexivity|]. apply filter_In. auto.
    - intros [k' [E H]]. apply filter_In in H. unfold beta in E. injection E as <- <- <-. destruct H as [H G]. split; [apply entry_beta; auto|exact G].
  Qed.
  Lemma count_fixed n : counts (fun k => exists e, nth_error X1 k = Some e /\ ~ In "prices" (free e) /\ In (Beta, (k, 0)) (fixed ps)) K n ->
    n = List.length (filter (fun k => exogenous k && (negb (gone k) && known k)) K).
  Proof.
    intros [m [N [<- H]]]. apply same_length; [exact N|apply NoDup_filter, seq_NoDup|]. intro k. rewrite H, filter_In.
    split; intros [Hk E]; (split; [exact Hk|]); assert (Hk' := Hk); apply in_seq in Hk'.
    - destruct E as [e [E [P F]]]. apply andb_true_iff. split.
      + unfold exogenous. rewrite (nth_error_nth _ _ _ E). apply negb_true_iff, mentions_not. exact P.
      + rewrite (ini_fixed _ _ _ _ _ ini) in F. apply filter_In in F. exact (proj2 F).
    - apply andb_true_iff in E. destruct E as [E F]. exists (nth k X1 (Const 0)). split; [apply nth_error_nth'; lia|]. split.
      + apply mentions_not, negb_true_iff. exact E.
      + rewrite (ini_fixed _ _ _ _ _ ini). apply filter_In. split; [|exact F]. apply all_in; [exact square|]. apply entry_beta. auto.
  Qed.

  Lemma count_ZD n : List.length demand_instruments = List.length (unfixed ps) ->
    counts (fun k => exists e, nth_error X1 k = Some e /\ ~ In "prices" (free e) /\ In (Beta, (k, 0)) (fixed ps)) K n ->
    List.length (optimal_ZD X1 [] d ps demand_instruments expected_prices []) = List.length (unfixed ps) + List.length (eliminated ps) + n.
  Proof.
    intros L C. apply count_fixed in C. unfold optimal_ZD, optimal_demand, keep, eliminated_endogenous.
    rewrite !app_length, !map_length. cbn [List.length].
    rewrite (combine_filter (fun p => negb (dropped X1 [] p))) by exact L.
    rewrite (enumerate_filter (fun i e => eliminated_index ps Beta i 0 && mentions "prices" e)).
    assert (E : List.length (filter (fun e => negb (mentions "prices" e)) X1) = List.length (filter exogenous K)).
    { assert (T := f_equal (@List.length _) (kept_columns (fun e => e) "prices" X1)). rewrite !map_length in T. exact T. }
    rewrite E. fold K.
    assert (G : List.length (filter (fun k => eliminated_index ps Beta k 0 && mentions "prices" (nth (k - 0) X1 (Const 0))) K) =
      List.length (filter (fun k => gone k && negb (exogenous k)) K)).
    { f_equal. apply filter_ext. intro k. rewrite Nat.sub_0_r. unfold exogenous. rewrite negb_involutive. reflexivity. }
    rewrite G, count_eliminated.
    assert (S1 := filter_split (dropped X1 []) (unfixed ps)). rewrite count_dropped in S1.
    assert (S2 := filter_split exogenous (filter gone K)). rewrite !filter_and in S2.
    assert (S3 := filter_split gone (filter exogenous K)). rewrite !filter_and in S3.
    assert (S4 := filter_split known (filter (fun k => exogenous k && negb (gone k)) K)). rewrite !filter_and in S4.
    assert (A1 : List.length (filter (fun k => gone k && exogenous k) K) = List.length (filter (fun k => exogenous k && gone k) K)).
    { f_equal. apply filter_ext. intro k. apply andb_comm. }
    assert (A2 : List.length (filter (fun k => exogenous k && negb (gone k) && known k) K) = n).
    { rewrite C. f_equal. apply filter_ext. intro k. symmetry. apply andb_assoc. }
    assert (A3 : List.length (filter (fun k => exogenous k && negb (gone k) && negb (known k)) K) =
      List.length (filter (fun k => exogenous k && (negb (gone k) && negb (known k))) K)).
    { f_equal. apply filter_ext. intro k. symmetry. apply andb_assoc. }
    lia.
  Qed.
End Count.

(* ---------- Default instruments ---------- *)

Section Default.
  Variables (market_ids firm_ids : list Z) (market_sort paired_sort : list nat) (X1 X3 : list expr) (K3 : nat).
  Notation default := (default_instruments market_ids firm_ids market_sort paired_sort X1 X3 K3).

  Lemma default_same d d' : (forall s n, In s (exogenous_names "prices" X1) \/ In s (exogenous_names "shares" X3) -> d n s = d' n s) ->
    default d = default d'.
  Proof.
    intros H.
    assert (C : forall names, (forall s, In s names -> In s (exogenous_names "prices" X1) \/ In s (exogenous_names "shares" X3)) ->
      map (fun s n => d n s) names = map (fun s n => d' n s) names).
    { intros names N. apply map_same. intros s Hs. apply functional_extensionality. intro n. apply H, N, Hs. }
    unfold default_instruments. cbv zeta. unfold sums_of_characteristics, shifters.
    rewrite (C (exogenous_names "prices" X1)) by auto. rewrite (C (exogenous_names "shares" X3)) by auto.
    assert (D : forall own other, (own = exogenous_names "prices" X1 \/ own = exogenous_names "shares" X3) ->
      map (fun s n => d n s) (filter (fun s => negb (mem s other)) own) = map (fun s n => d' n s) (filter (fun s => negb (mem s other)) own)).
    { intros own other O. apply C. intros s Hs. apply filter_In in Hs. destruct Hs as [Hs _]. destruct O as [->| ->]; auto. }
    rewrite (D (exogenous_names "shares" X3)) by auto. rewrite (D (exogenous_names "prices" X1)) by auto. reflexivity.
  Qed.
  Lemma exogenous_in s t X : In t (exogenous_names s X) <-> (exists e, In e X /\ In t (free e)) /\ t <> s.
  Proof.
    unfold exogenous_names. rewrite nodup_In, filter_In, negb_true_iff, in_flat_map, String.eqb_neq. reflexivity.
  Qed.
  Lemma overridden l : forall d n s, ~ In s (map fst l) ->
    fold_left (fun d (sv : string * (nat -> R)) => replaced d (fst sv) (snd sv)) l d n s = d n s.
  Proof.
    induction l as [|[t v] l IH]; intros d n s H; [reflexivity|]. cbn [fold_left map fst snd In] in *. rewrite IH by tauto.
    unfold replaced. destruct (String.eqb s t) eqn:E; [|reflexivity]. apply String.eqb_eq in E. subst. tauto.
  Qed.
  Lemma default_overrides d overrides :
    (forall s e, In s (map fst overrides) -> In e X1 -> In s (free e) -> s = "prices") ->
    (forall s e, In s (map fst overrides) -> In e X3 -> In s (free e) -> s = "shares") ->
    snd (simulated_problem market_ids firm_ids market_sort paired_sort X1 X3 K3 d overrides) =
    default (fst (simulated_problem market_ids firm_ids market_sort paired_sort X1 X3 K3 d overrides)).
  Proof.
    intros H1 H3. cbn [simulated_problem fst snd]. apply default_same. intros s n H. symmetry. apply overridden. intro O.
    destruct H as [H|H]; apply exogenous_in in H; destruct H as [[e [He Hs]] N]; apply N; eauto.
  Qed.
End Default.

Section Contents.
  Variables (market_ids firm_ids : list Z) (market_sort paired_sort : list nat) (X1 X3 : list expr) (K3 : nat).
  Hypothesis lengths : List.length market_ids = List.length firm_ids.
  Hypothesis sorted : is_argsort market_ids market_sort.
  Hypothesis paired : is_argsort (interact_ids market_ids firm_ids) paired_sort.
  Let N := List.length market_ids.

  Lemma market_indices_in mi : In mi (market_indices market_ids) <-> exists t, In t market_ids /\ mi = (t, rows_of market_ids t).
  Proof.
    rewrite indices_eq, in_map_iff. assert (U := proj2 (group_unique_spec market_ids _ (stable_is_argsort _ _ (stable_argsort_correct market_ids)))).
    split; intros [t [A B]]; exists t; [split; [apply U; exact B|auto]|split; [auto|apply U; exact A]].
  Qed.
  Lemma largest (l : list (Z * list nat)) : (forall mi, In mi l -> List.length (snd mi) <= fold_right (fun market m => Nat.max (List.length (snd market)) m) 0 l) /\
    (l <> [] -> exists mi, In mi l /\ List.length (snd mi) = fold_right (fun market m => Nat.max (List.length (snd market)) m) 0 l).
  Proof.
    induction l as [|a l [IH1 IH2]]; cbn [fold_right In]; split; try tauto.
    - intros mi [<-|H]; [lia|]. specialize (IH1 mi H). lia.
    - intros _. destruct l as [|b l]; [exists a; cbn; split; [auto|lia]|].
      destruct IH2 as [mi [H E]]; [discriminate|]. set (m := fold_right _ 0 (b :: l)) in *.
      destruct (Nat.le_ge_cases m (List.length (snd a))); [exists a; split; [auto|lia]|exists mi; split; [auto|lia]].
  Qed.
  Lemma variation_iff : J_variation market_ids = true <-> sizes_differ market_ids.
  Proof.
    unfold J_variation, max_J. rewrite existsb_exists. destruct (largest (market_indices market_ids)) as [L1 L2]. split.
    - intros [mi [H E]]. apply Nat.ltb_lt in E. destruct L2 as [mj [Hj Ej]]; [intro C; rewrite C in H; destruct H|].
      assert (A := proj1 (market_indices_in mi) H). assert (B := proj1 (market_indices_in mj) Hj). destruct A as [t [Ht ->]], B as [u [Hu ->]]. cbn [snd] in *.
      exists t, u. repeat split; [exact Ht|exact Hu|]. rewrite <- Ej in E. lia.
    - intros [t [u [Ht [Hu Ne]]]].
      assert (A : In (t, rows_of market_ids t) (market_indices market_ids)) by (apply market_indices_in; eauto).
      assert (B : In (u, rows_of market_ids u) (market_indices market_ids)) by (apply market_indices_in; eauto).
      assert (A' := L1 _ A). assert (B' := L1 _ B). cbn [snd] in A', B'.
      destruct (Nat.lt_ge_cases (List.length (rows_of market_ids t)) (List.length (rows_of market_ids u))).
      + eexists. split; [exact A|]. apply Nat.ltb_lt. cbn [snd]. lia.
      + eexists. split; [exact B|]. apply Nat.ltb_lt. cbn [snd]. lia.
  Qed.
  Lemma varies_iff x : varies market_ids x = true <-> not_constant N x.
  Proof.
    unfold varies, not_constant. rewrite existsb_exists. split.
    - intros [n [H E]]. apply in_seq in H. exists n. split; [unfold N; lia|]. destruct (Req_EM_T (x n) (x 0)); [discriminate|assumption].
    - intros [n [H E]]. exists n. split; [apply in_seq; unfold N in H; lia|]. destruct (Req_EM_T (x n) (x 0)); [contradiction|reflexivity].
  Qed.
  Lemma not_constant_agrees x y : agrees N x y -> not_constant N x -> not_constant N y.
  Proof. intros A [n [H E]]. exists n. split; [exact H|]. rewrite <- (A n H), <- (A 0) by lia. exact E. Qed.

  Lemma sums_contents d s X z : (exists z', In z' (sums_of_characteristics market_ids firm_ids market_sort paired_sort d (exogenous_names s X)) /\ agrees N z z') <->
    not_constant N z /\ exists x, summed market_ids d s X x /\ (sum_of_others market_ids firm_ids x z \/ sum_of_rivals market_ids firm_ids x z).
  Proof.
    assert (C : forall x, In x ((if J_variation market_ids then [fun _ => 1%R] else []) ++ map (fun s n => d n s) (exogenous_names s X)) <-> summed market_ids d s X x).
    { intro x. rewrite in_app_iff, in_map_iff. unfold summed. rewrite <- variation_iff. split.
      - intros [H|[t [<- H]]].
        + left. destruct (J_variation market_ids); [|destruct H]. destruct H as [<-|[]]. auto.
        + right. apply exogenous_in in H. exists t. split; [exact (proj1 H)|]. split; [exact (proj2 H)|reflexivity].
      - intros [[V E]|[t [U [Ne E]]]].
        + left. rewrite V. left. apply functional_extensionality. intro n. symmetry. apply E.
        + right. exists t. split; [apply functional_extensionality; intro n; symmetry; apply E|]. apply exogenous_in. split; [exact U|exact Ne]. }
    assert (O : forall x, agrees N (blp_other market_ids firm_ids paired_sort x) (fun n => sum_where N (others market_ids firm_ids n) x)).
    { intros x n Hn. apply blp_other_spec; assumption. }
    assert (V : forall x, agrees N (blp_rival market_ids firm_ids market_sort paired_sort x) (fun n => sum_where N (rivals market_ids firm_ids n) x)).
    { intros x n Hn. apply blp_rival_spec; assumption. }
    unfold sums_of_characteristics. cbv zeta. split.
    - intros [z' [H A]]. apply filter_In in H. destruct H as [H W]. apply varies_iff in W. split.
      + apply (not_constant_agrees z' z); [intros n Hn; symmetry; exact (A n Hn)|exact W].
      + apply in_app_iff in H. rewrite !in_map_iff in H. destruct H as [[x [<- H]]|[x [<- H]]]; apply C in H; exists x; (split; [exact H|]); [left|right];
          intros n Hn; rewrite (A n Hn); [apply O|apply V]; exact Hn.
    - intros [W [x [S [E|E]]]].
      + exists (blp_other market_ids firm_ids paired_sort x).
        assert (A : agrees N z (blp_other market_ids firm_ids paired_sort x)) by (intros n Hn; rewrite (O x n Hn); apply E; exact Hn).
        split; [|exact A]. apply filter_In. split; [|apply varies_iff; exact (not_constant_agrees _ _ A W)].
        apply in_app_iff. left. apply in_map. apply C. exact S.
      + exists (blp_rival market_ids firm_ids market_sort paired_sort x).
        assert (A : agrees N z (blp_rival market_ids firm_ids market_sort paired_sort x)) by (intros n Hn; rewrite (V x n Hn); apply E; exact Hn).
        split; [|exact A]. apply filter_In. split; [|apply varies_iff; exact (not_constant_agrees _ _ A W)].
        apply in_app_iff. right. apply in_map. apply C. exact S.
  Qed.
  Lemma shifters_contents d s t X Y z : (exists z', In z' (shifters d (exogenous_names t Y) (exogenous_names s X)) /\ agrees N z z') <->
    exists v, uses Y v /\ v <> t /\ ~ (uses X v /\ v <> s) /\ agrees N z (fun n => d n v).
  Proof.
    unfold shifters. split.
    - intros [z' [H A]]. apply in_map_iff in H. destruct H as [v [<- H]]. apply filter_In in H. destruct H as [H M].
      apply exogenous_in in H. apply negb_true_iff, mem_not in M. rewrite exogenous_in in M. exists v. unfold uses. tauto.
    - intros [v [U [T [M A]]]]. eexists. split; [|exact A]. apply in_map_iff. exists v. split; [reflexivity|]. apply filter_In.
      split; [apply exogenous_in; split; assumption|]. apply negb_true_iff, mem_not. rewrite exogenous_in. exact M.
  Qed.
  Lemma default_demand d z :
    (exists z', In z' (fst (default_instruments market_ids firm_ids market_sort paired_sort X1 X3 K3 d)) /\ agrees N z z') <->
    default_instrument market_ids firm_ids d "prices" "shares" X1 X3 z.
  Proof.
    unfold default_instrument. fold N. rewrite <- sums_contents, <- shifters_contents. cbn [default_instruments fst]. split.
    - intros [z' [H A]]. apply in_app_iff in H. destruct H; [left|right]; eauto.
    - intros [[z' [H A]]|[z' [H A]]]; exists z'; (split; [apply in_app_iff; auto|exact A]).
  Qed.
  Lemma default_supply d z : 0 < K3 ->
    ((exists z', In z' (snd (default_instruments market_ids firm_ids market_sort paired_sort X1 X3 K3 d)) /\ agrees N z z') <->
     default_instrument market_ids firm_ids d "shares" "prices" X3 X1 z).
  Proof.
    intros P. apply Nat.ltb_lt in P. unfold default_instrument. fold N. rewrite <- sums_contents, <- shifters_contents. cbn [default_instruments snd]. rewrite P. split.
    - intros [z' [H A]]. apply in_app_iff in H. destruct H; [left|right]; eauto.
    - intros [[z' [H A]]|[z' [H A]]]; exists z'; (split; [apply in_app_iff; auto|exact A]).
  Qed.
End Contents.
