(** Proofs about loaded and simulated variables. *)
From Coq Require Import Reals List Bool Arith Lia Lra Permutation FunctionalExtensionality.
From Verif Require Import DrawsModel DrawsSpec.
Import ListNotations.

Section Names.
  Context {name : Type} (eqb leb : name -> name -> bool).
  Hypothesis EQ : forall x y, eqb x y = true <-> x = y.
  Hypothesis LE : total_order leb.
  Notation insert := (insert name leb).
  Notation sorted := (sorted name leb).
  Notation mem := (mem name eqb).
  Notation lookup := (lookup name eqb).
  Notation names_of := (names_of name).

  Lemma insert_swap a b l : insert a (insert b l) = insert b (insert a l).
  Proof.
    destruct LE as (T & Tr & An). induction l as [|c l IH]; cbn.
    - destruct (leb a b) eqn:Q1; destruct (leb b a) eqn:Q2; try reflexivity.
      + now rewrite (An a b Q1 Q2).
      + destruct (T a b); congruence.
    - destruct (leb b c) eqn:Q1; destruct (leb a c) eqn:Q2; cbn; rewrite ?Q1, ?Q2.
      + destruct (leb a b) eqn:Q3; destruct (leb b a) eqn:Q4; try reflexivity.
        * now rewrite (An a b Q3 Q4).
        * destruct (T a b); congruence.
      + destruct (leb a b) eqn:Q3; [|reflexivity]. rewrite (Tr a b c Q3 Q1) in Q2. discriminate.
      + destruct (leb b a) eqn:Q3; [|reflexivity]. rewrite (Tr b a c Q3 Q2) in Q1. discriminate.
      + now rewrite IH.
  Qed.
  Lemma sorted_permutation l l' : Permutation l l' -> sorted l = sorted l'.
  Proof.
    unfold DrawsModel.sorted. induction 1; cbn; [reflexivity|now rewrite IHPermutation|apply insert_swap|congruence].
  Qed.
  Lemma insert_perm x l : Permutation (insert x l) (x :: l).
  Proof.
    induction l as [|y l IH]; cbn; [constructor; constructor|]. destruct (leb x y); [reflexivity|].
    rewrite IH. constructor.
  Qed.
  Lemma sorted_perm l : Permutation (sorted l) l.
  Proof. unfold DrawsModel.sorted. induction l as [|x l IH]; cbn; [constructor|]. rewrite insert_perm. now constructor. Qed.
  Lemma mem_in x l : mem x l = true <-> In x l.
  Proof.
    unfold DrawsModel.mem. rewrite existsb_exists. split.
    - intros (y & Hy & E). apply EQ in E. now subst.
    - intros H. exists x. split; [exact H|now apply EQ].
  Qed.
  Lemma mem_not_in x l : mem x l = false <-> ~ In x l.
  Proof. rewrite <- mem_in. now destruct (mem x l). Qed.
  Lemma filter_permutation {A} (f : A -> bool) l l' : Permutation l l' -> Permutation (filter f l) (filter f l').
  Proof.
    induction 1; cbn; [constructor|destruct (f x); [now constructor|assumption]| |now transitivity (filter f l')].
    destruct (f x), (f y); try reflexivity. constructor.
  Qed.
  Lemma missing_permutation reserved m l l' : Permutation l l' ->
    missing_names name eqb leb reserved m l = missing_names name eqb leb reserved m l'.
  Proof. intros H. apply sorted_permutation. now apply filter_permutation. Qed.
  Lemma missing_in reserved m l x : In x (missing_names name eqb leb reserved m l) <-> In x l /\ ~ In x reserved /\ ~ In x (names_of m).
  Proof.
    unfold missing_names. split.
    - intros H. apply (Permutation_in x (sorted_perm _)) in H. apply filter_In in H. destruct H as [H1 H2].
      apply andb_true_iff in H2. destruct H2 as [H2 H3]. apply negb_true_iff in H2, H3. rewrite mem_not_in in H2, H3. now split.
    - intros (H1 & H2 & H3). apply (Permutation_in x (Permutation_sym (sorted_perm _))). apply filter_In. split; [exact H1|].
      apply mem_not_in in H2, H3. unfold DrawsModel.mem in *. rewrite H2, H3. reflexivity.
  Qed.
  Lemma missing_nodup reserved m l : NoDup l -> NoDup (missing_names name eqb leb reserved m l).
  Proof.
    intros H. unfold missing_names. apply (Permutation_NoDup (Permutation_sym (sorted_perm _))). now apply NoDup_filter.
  Qed.

  Lemma lookup_cons x y c m : lookup ((y, c) :: m) x = if eqb x y then Some c else lookup m x.
  Proof. unfold DrawsModel.lookup. cbn. now destruct (eqb x y). Qed.
  Lemma eqb_refl x : eqb x x = true. Proof. now apply EQ. Qed.
  Lemma eqb_neq x y : x <> y -> eqb x y = false.
  Proof. intros H. destruct (eqb x y) eqn:Q; [|reflexivity]. apply EQ in Q. contradiction. Qed.
  Lemma lookup_none m x : lookup m x = None <-> ~ In x (names_of m).
  Proof.
    induction m as [|[y c] m IH]; [split; [intros _ []|reflexivity]|]. rewrite lookup_cons. destruct (eqb x y) eqn:Q.
    - apply EQ in Q. subst. split; [discriminate|]. intros H. exfalso. apply H. now left.
    - rewrite IH. cbn. split; [|tauto]. intros H [->|K]; [rewrite eqb_refl in Q; discriminate|tauto].
  Qed.

    (** The order in which variables are loaded does not depend on values. *)
    Fixpoint loaded_names (reserved done : list name) (formulations : list (list name)) : list name :=
      match formulations with
      | [] => []
      | names :: rest =>
          let l := sorted (filter (fun x => negb (mem x reserved) && negb (mem x done)) names) in
          l ++ loaded_names reserved (rev l ++ done) rest
      end.
    Lemma loaded_names_in reserved : forall formulations done x,
      In x (loaded_names reserved done formulations) <-> (exists names, In names formulations /\ In x names) /\ ~ In x reserved /\ ~ In x done.
    Proof.
      induction formulations as [|names rest IH]; intros done x; cbn.
      - split; [intros []|]. intros ((names & [] & _) & _).
      - set (l := sorted _). assert (Hl : forall x, In x l <-> In x names /\ ~ In x reserved /\ ~ In x done).
        { intros z. unfold l. split.
          - intros H. apply (Permutation_in z (sorted_perm _)) in H. apply filter_In in H. destruct H as [H1 H2].
            apply andb_true_iff in H2. destruct H2 as [H2 H3]. apply negb_true_iff in H2, H3. rewrite mem_not_in in H2, H3. now split.
          - intros (H1 & H2 & H3). apply (Permutation_in z (Permutation_sym (sorted_perm _))). apply filter_In. split; [exact H1|].
            apply mem_not_in in H2, H3. unfold DrawsModel.mem in *. rewrite H2, H3. reflexivity. }
        rewrite in_app_iff, IH, Hl. split.
        + intros [(H1 & H2 & H3)|((ns & H1 & H2) & H3 & H4)].
          * split; [exists names; split; [now left|exact H1]|now split].
          * split; [exists ns; split; [now right|exact H2]|]. split; [exact H3|]. intros K. apply H4. apply in_or_app. now right.
        + intros ((ns & [<-|H1] & H2) & H3 & H4); [left; now repeat split|].
          destruct (mem x names) eqn:Q.
          * apply mem_in in Q. left. now repeat split.
          * apply mem_not_in in Q. right. split; [exists ns; now split|]. split; [exact H3|]. intros K. apply in_app_or in K.
            destruct K as [K|K]; [apply in_rev in K; apply Hl in K; tauto|tauto].
    Qed.
    Lemma loaded_names_nodup reserved : forall formulations done, Forall (@NoDup name) formulations ->
      NoDup (loaded_names reserved done formulations).
    Proof.
      induction formulations as [|names rest IH]; intros done H; cbn; [constructor|]. inversion H; subst. set (l := sorted _).
      assert (NL : NoDup l). { apply (Permutation_NoDup (Permutation_sym (sorted_perm _))). now apply NoDup_filter. }
      assert (NR := IH (rev l ++ done) ltac:(assumption)).
      assert (D : forall x, In x l -> ~ In x (loaded_names reserved (rev l ++ done) rest)).
      { intros x Hx K. apply loaded_names_in in K. destruct K as (_ & _ & K). apply K. apply in_or_app. left. now apply in_rev in Hx. }
      clear IH H. revert NL NR D. generalize (loaded_names reserved (rev l ++ done) rest) as r. intros r. induction l as [|a l' IHl]; intros NL NR D; [exact NR|].
      cbn. inversion NL; subst. constructor.
      - rewrite in_app_iff. intros [K|K]; [contradiction|]. exact (D a (or_introl eq_refl) K).
      - apply IHl; [assumption|assumption|]. intros x Hx. apply D. now right.
    Qed.
  Section Products.
    Variable (stream : nat -> R) (N : nat) (fields : name -> list column).
    Notation load_variables := (load_variables name stream N fields).
    Notation load_formulations := (load_formulations name eqb leb stream N fields).
    Notation missing_names := (missing_names name eqb leb).
    Definition drawn (l : list name) : list name := filter (fun x => match fields x with [] => true | _ => false end) l.

    (** What is loaded: names are in the order l; those that are drawn have consecutive blocks of draws. *)
    Definition loads (position : nat) (l : list name) (x : name) (c : column) : Prop :=
      fields x = [c] \/
      fields x = [] /\ exists k, nth_error (drawn l) k = Some x /\ c = (fun i => stream (position + k * N + i)).
    Lemma drawn_cons x l : drawn (x :: l) = match fields x with [] => x :: drawn l | _ => drawn l end.
    Proof. unfold drawn. cbn. now destruct (fields x). Qed.
    Lemma drawn_app l l' : drawn (l ++ l') = drawn l ++ drawn l'.
    Proof. apply filter_app. Qed.
    Lemma load_variables_spec : forall l m position m' position', load_variables (m, position) l = Some (m', position') ->
      NoDup l -> (forall x, In x l -> ~ In x (names_of m)) ->
      names_of m' = rev l ++ names_of m /\ position' = position + length (drawn l) * N /\
      (forall x, ~ In x l -> lookup m' x = lookup m x) /\
      (forall x, In x l -> exists c, lookup m' x = Some c /\ loads position l x c).
    Proof.
      induction l as [|y l IH]; intros m position m' position' E ND HI; cbn in E.
      - injection E as <- <-. cbn. repeat split; [lia|intros x []].
      - inversion ND as [|? ? Hy ND']; subst. rewrite drawn_cons. destruct (fields y) as [|c [|c2 l2]] eqn:Ey; [| |discriminate].
        + destruct (IH _ _ _ _ E ND') as (E1 & E2 & E3 & E4).
          { intros x Hx [K|K]; [cbn in K; subst; contradiction|]. exact (HI x (or_intror Hx) K). }
          cbn [names_of map fst] in E1. repeat split.
          * rewrite E1. cbn. now rewrite <- app_assoc.
          * rewrite E2. cbn. lia.
          * intros x Hx. rewrite E3 by (intros K; apply Hx; now right). rewrite lookup_cons, eqb_neq; [reflexivity|].
            intros ->. apply Hx. now left.
          * intros x [<-|Hx].
            -- rewrite E3 by exact Hy. rewrite lookup_cons, eqb_refl. eexists. split; [reflexivity|]. right. split; [exact Ey|].
               exists 0. rewrite drawn_cons, Ey. split; [reflexivity|]. apply functional_extensionality. intros i. f_equal. lia.
            -- destruct (E4 x Hx) as (c & Ec & [Hc|(Hc & k & Hk & ->)]); eexists; split; try exact Ec; [now left|].
               right. split; [exact Hc|]. exists (S k). rewrite drawn_cons, Ey. split; [exact Hk|].
               apply functional_extensionality. intros i. f_equal. lia.
        + destruct (IH _ _ _ _ E ND') as (E1 & E2 & E3 & E4).
          { intros x Hx [K|K]; [cbn in K; subst; contradiction|]. exact (HI x (or_intror Hx) K). }
          cbn [names_of map fst] in E1. repeat split.
          * rewrite E1. cbn. now rewrite <- app_assoc.
          * exact E2.
          * intros x Hx. rewrite E3 by (intros K; apply Hx; now right). rewrite lookup_cons, eqb_neq; [reflexivity|].
            intros ->. apply Hx. now left.
          * intros x [<-|Hx].
            -- rewrite E3 by exact Hy. rewrite lookup_cons, eqb_refl. eexists. split; [reflexivity|]. now left.
            -- destruct (E4 x Hx) as (c' & Ec & [Hc|(Hc & k & Hk & ->)]); eexists; split; try exact Ec; [now left|].
               right. split; [exact Hc|]. exists k. rewrite drawn_cons, Ey. now split.
    Qed.

    Lemma load_formulations_spec reserved : forall formulations m position m' position',
      load_formulations reserved (m, position) formulations = Some (m', position') -> Forall (@NoDup name) formulations ->
      let l := loaded_names reserved (names_of m) formulations in
      position' = position + length (drawn l) * N /\ (forall x, ~ In x l -> lookup m' x = lookup m x) /\
      (forall x, In x l -> exists c, lookup m' x = Some c /\ loads position l x c).
    Proof.
      induction formulations as [|names rest IH]; intros m position m' position' E HN; cbn in E |- *.
      - injection E as <- <-. repeat split; [lia|intros x []].
      - inversion HN; subst. fold (missing_names reserved m names). set (l := missing_names reserved m names) in *.
        destruct (load_variables (m, position) l) as [[m1 p1]|] eqn:E1; [|discriminate].
        destruct (load_variables_spec l m position m1 p1 E1) as (A1 & A2 & A3 & A4).
        { now apply missing_nodup. } { intros x Hx. apply missing_in in Hx. tauto. }
        destruct (IH m1 p1 m' position' E ltac:(assumption)) as (B1 & B2 & B3). rewrite A1 in B1, B2, B3.
        set (r := loaded_names reserved (rev l ++ names_of m) rest) in *. repeat split.
        + rewrite B1, A2, drawn_app, app_length. lia.
        + intros x Hx. rewrite in_app_iff in Hx. rewrite B2 by tauto. apply A3. tauto.
        + intros x Hx. apply in_app_or in Hx. destruct (mem x r) eqn:Q.
          * apply mem_in in Q. destruct (B3 x Q) as (c & Ec & [Hc|(Hc & k & Hk & ->)]); eexists; split; try exact Ec; [now left|].
            right. split; [exact Hc|]. exists (length (drawn l) + k). rewrite drawn_app. split.
            -- rewrite nth_error_app2 by lia. now replace (length (drawn l) + k - length (drawn l)) with k by lia.
            -- apply functional_extensionality. intros i. f_equal. rewrite A2. lia.
          * apply mem_not_in in Q. destruct Hx as [Hx|Hx]; [|contradiction]. rewrite B2 by exact Q.
            destruct (A4 x Hx) as (c & Ec & [Hc|(Hc & k & Hk & ->)]); eexists; split; try exact Ec; [now left|].
            right. split; [exact Hc|]. exists k. rewrite drawn_app. split; [|reflexivity].
            rewrite nth_error_app1; [exact Hk|]. apply nth_error_Some. congruence.
    Qed.
    Lemma load_variables_fails : forall l s, load_variables s l = None <-> exists x, In x l /\ 1 < length (fields x).
    Proof.
      induction l as [|y l IH]; intros [m p]; cbn.
      - split; [discriminate|intros (x & [] & _)].
      - destruct (fields y) as [|c [|c2 l2]] eqn:Ey.
        + rewrite IH. split; [intros (x & H1 & H2); exists x; tauto|]. intros (x & [<-|H1] & H2); [rewrite Ey in H2; cbn in H2; lia|]. now exists x.
        + rewrite IH. split; [intros (x & H1 & H2); exists x; tauto|]. intros (x & [<-|H1] & H2); [rewrite Ey in H2; cbn in H2; lia|]. now exists x.
        + split; [|reflexivity]. intros _. exists y. rewrite Ey. cbn. split; [now left|lia].
    Qed.
    Lemma load_formulations_fails reserved : forall formulations m position, Forall (@NoDup name) formulations ->
      load_formulations reserved (m, position) formulations = None <->
      exists x, In x (loaded_names reserved (names_of m) formulations) /\ 1 < length (fields x).
    Proof.
      induction formulations as [|names rest IH]; intros m position HN; cbn.
      - split; [discriminate|intros (x & [] & _)].
      - inversion HN as [|? ? HN1 HN2]; subst. fold (missing_names reserved m names). set (l := missing_names reserved m names).
        destruct (load_variables (m, position) l) as [[m1 p1]|] eqn:E1.
        + destruct (load_variables_spec l m position m1 p1 E1) as (A1 & _ & _ & _).
          { now apply missing_nodup. } { intros x Hx. apply missing_in in Hx. tauto. }
          rewrite IH by assumption. rewrite A1. split.
          * intros (x & H1 & H2). exists x. split; [apply in_or_app; now right|exact H2].
          * intros (x & H1 & H2). exists x. split; [|exact H2]. apply in_app_or in H1. destruct H1 as [H1|H1]; [|exact H1].
            assert (K : load_variables (m, position) l = None) by (apply load_variables_fails; now exists x). congruence.
        + split; [|reflexivity]. intros _. apply load_variables_fails in E1. destruct E1 as (x & H1 & H2).
          exists x. split; [apply in_or_app; now left|exact H2].
    Qed.
    Lemma load_formulations_permutation reserved : forall formulations formulations' s, Forall2 (@Permutation name) formulations formulations' ->
      load_formulations reserved s formulations = load_formulations reserved s formulations'.
    Proof.
      induction formulations as [|names rest IH]; intros f' s H; inversion H; subst; [reflexivity|]. cbn.
      rewrite (missing_permutation reserved (fst s) names y) by assumption.
      destruct (load_variables s _) as [s'|]; [|reflexivity]. now apply IH.
    Qed.
  End Products.
  Lemma drawn_same (fields fields' : name -> list column) l : (forall x, fields x = [] <-> fields' x = []) -> drawn fields l = drawn fields' l.
  Proof.
    intros H. unfold drawn. apply filter_ext. intros x. specialize (H x). destruct (fields x), (fields' x); try reflexivity.
    - destruct H as [H _]. discriminate (H eq_refl).
    - destruct H as [_ H]. discriminate (H eq_refl).
  Qed.
End Names.

(** Initial shares. *)
Lemma total_bound (l : list nat) c b : (forall i, In i l -> (0 <= c i < b)%R) ->
  (0 <= fold_right Rplus 0 (map c l))%R /\ (l <> [] -> fold_right Rplus 0 (map c l) < INR (length l) * b)%R.
Proof.
  induction l as [|x l IH]; intros H; [split; [cbn; lra|congruence]|].
  destruct IH as [I1 I2]; [intros i Hi; apply H; now right|]. destruct (H x (or_introl eq_refl)) as [H1 H2].
  cbn [map fold_right]. split; [lra|]. intros _. change (length (x :: l)) with (S (length l)). rewrite S_INR. destruct l as [|y l].
  - cbn. lra.
  - specialize (I2 ltac:(discriminate)). lra.
Qed.

Section Agents.
  Context {name : Type} (stream : nat -> R) (I : nat) (fields : name -> list column).
  Notation step := (load_agent_variable name stream I fields).
  Lemma combine_indices {A} (x : A) (l : list column) : forall s j c,
    In ((x, Some j), c) (combine (map (fun j => (x, Some j)) (seq s (length l))) l) <-> s <= j /\ nth_error l (j - s) = Some c.
  Proof.
    induction l as [|c0 l IH]; intros s j c; cbn.
    - split; [intros []|]. intros [_ H]. now destruct (j - s).
    - rewrite IH. split.
      + intros [E|[H1 H2]]; [injection E as <- <-; rewrite Nat.sub_diag; split; [lia|reflexivity]|].
        split; [lia|]. replace (j - s) with (S (j - S s)) by lia. exact H2.
      + intros [H1 H2]. destruct (Nat.eq_dec s j) as [<-|H].
        * left. rewrite Nat.sub_diag in H2. now injection H2 as ->.
        * right. split; [lia|]. now replace (j - s) with (S (j - S s)) in H2 by lia.
  Qed.
  Lemma combine_key {A} (x y : A) o (l : list column) s c :
    In ((y, o), c) (combine (map (fun j => (x, Some j)) (seq s (length l))) l) -> y = x /\ o <> None.
  Proof.
    intros H. apply in_combine_l in H. apply in_map_iff in H. destruct H as (j & E & _). injection E as <- <-. split; [reflexivity|discriminate].
  Qed.
  Definition agent_entry (position : nat) (l : list name) (x : name) (o : option nat) (c : column) : Prop :=
    In x l /\ match o with
              | None => fields x = [c] \/ fields x = [] /\ exists k, nth_error (drawn fields l) k = Some x /\ c = (fun i => stream (position + k * I + i))
              | Some j => 1 < length (fields x) /\ nth_error (fields x) j = Some c
              end.
  Lemma nth_error_drawn l k x : nth_error (drawn fields l) k = Some x -> In x l /\ fields x = [].
  Proof.
    intros H. apply nth_error_In in H. unfold drawn in H. apply filter_In in H. destruct H as [H1 H2]. split; [exact H1|]. now destruct (fields x).
  Qed.
  Lemma load_agents_spec : forall l m position, NoDup l ->
    let r := fold_left step l (m, position) in
    snd r = position + length (drawn fields l) * I /\
    forall x o c, In ((x, o), c) (fst r) <-> In ((x, o), c) m \/ agent_entry position l x o c.
  Proof.
    induction l as [|y l IH]; intros m position ND.
    - cbn. split; [lia|]. intros x o c. unfold agent_entry. cbn. tauto.
    - inversion ND as [|? ? Hy ND']; subst. cbn [fold_left]. rewrite drawn_cons.
      destruct (fields y) as [|c0 [|c1 l2]] eqn:Ey.
      + assert (ES : step (m, position) y = (((y, None), fun i => stream (position + i)) :: m, position + I)).
        { unfold load_agent_variable, uniform. now rewrite Ey. }
        rewrite ES. clear ES. cbv zeta. destruct (IH (((y, None), fun i => stream (position + i)) :: m) (position + I) ND') as [E1 E2].
        split; [etransitivity; [exact E1|]; cbn; lia|]. intros x o c. etransitivity; [apply E2|]. unfold agent_entry. rewrite drawn_cons, Ey. cbn [In]. split.
        * intros [[E|H]|[H1 H2]].
          -- injection E as <- <- <-. right. split; [now left|]. right. split; [exact Ey|]. exists 0. split; [reflexivity|].
             apply functional_extensionality. intros i. f_equal. lia.
          -- now left.
          -- right. split; [now right|]. destruct o as [j|]; [exact H2|]. destruct H2 as [H2|(H2 & k & Hk & ->)]; [now left|].
             right. split; [exact H2|]. exists (S k). split; [exact Hk|]. apply functional_extensionality. intros i. f_equal. lia.
        * intros [H|[[->|H1] H2]]; [left; now right| |].
          -- destruct o as [j|]; [rewrite Ey in H2; cbn in H2; lia|]. destruct H2 as [H2|(_ & k & Hk & ->)]; [congruence|].
             destruct k as [|k]; [|exfalso; apply Hy; apply (nth_error_drawn l k x Hk)].
             left. left. f_equal. apply functional_extensionality. intros i. f_equal. lia.
          -- right. split; [exact H1|]. destruct o as [j|]; [exact H2|]. destruct H2 as [H2|(H2 & k & Hk & ->)]; [now left|].
             right. split; [exact H2|]. destruct k as [|k]; [cbn in Hk; injection Hk as <-; contradiction|].
             exists k. split; [exact Hk|]. apply functional_extensionality. intros i. f_equal. lia.
      + assert (ES : step (m, position) y = (((y, None), c0) :: m, position)) by (unfold load_agent_variable; now rewrite Ey).
        rewrite ES. clear ES. cbv zeta. destruct (IH (((y, None), c0) :: m) position ND') as [E1 E2]. split; [exact E1|].
        intros x o c. etransitivity; [apply E2|]. unfold agent_entry. rewrite drawn_cons, Ey. cbn [In]. split.
        * intros [[E|H]|[H1 H2]]; [|now left|right; split; [now right|exact H2]].
          injection E as <- <- <-. right. split; [now left|]. now left.
        * intros [H|[[->|H1] H2]]; [left; now right| |right; now split].
          destruct o as [j|]; [rewrite Ey in H2; cbn in H2; lia|]. destruct H2 as [H2|(H2 & _)]; [|congruence].
          left. left. rewrite Ey in H2. now injection H2 as ->.
      + assert (ES : step (m, position) y = (rev (combine (map (fun j => (y, Some j)) (seq 0 (length (c0 :: c1 :: l2)))) (c0 :: c1 :: l2)) ++ m, position)).
        { unfold load_agent_variable. now rewrite Ey. }
        rewrite ES. clear ES. cbv zeta. set (cs := c0 :: c1 :: l2) in *.
        destruct (IH (rev (combine (map (fun j => (y, Some j)) (seq 0 (length cs))) cs) ++ m) position ND') as [E1 E2]. split; [exact E1|].
        intros x o c. etransitivity; [apply E2|]. unfold agent_entry. rewrite drawn_cons, Ey. unfold cs at 3. rewrite in_app_iff, <- in_rev. cbn [In]. split.
        * intros [[H|H]|[H1 H2]]; [|now left|right; split; [now right|exact H2]].
          destruct (combine_key _ _ _ _ _ _ H) as [-> Ho]. destruct o as [j|]; [|congruence]. right. split; [now left|]. rewrite Ey.
          apply combine_indices in H. destruct H as [_ H]. rewrite Nat.sub_0_r in H. split; [cbn; lia|exact H].
        * intros [H|[[->|H1] H2]]; [left; now right| |right; now split].
          destruct o as [j|].
          -- destruct H2 as [_ H2]. rewrite Ey in H2. left. left. apply combine_indices. rewrite Nat.sub_0_r. split; [lia|exact H2].
          -- destruct H2 as [H2|(H2 & _)]; rewrite Ey in H2; discriminate.
  Qed.
End Agents.
