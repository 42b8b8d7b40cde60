(** Lemmas about BasicsModel. *)
From Coq Require Import Reals Lra Lia ZArith List Bool Arith Permutation Sorted Ascii.
From Verif Require Import Base BasicsModel BasicsSpec.
Import ListNotations.
Local Open Scope nat_scope.

(* ---------- runs of equal keys ---------- *)

Fixpoint runs (key : nat -> Z) (p : list nat) : list (Z * list nat) :=
  match p with
  | [] => []
  | j :: p' =>
      match runs key p' with
      | [] => [(key j, [j])]
      | (k, s) :: rest => if Z.eqb (key j) k then (k, j :: s) :: rest else (key j, [j]) :: (k, s) :: rest
      end
  end.

Lemma nonzero_S k mask : nonzero (S k) mask = map S (nonzero k mask).
Proof.
  revert k. induction mask as [|b mask IH]; intros k; simpl; [reflexivity|].
  destruct b; simpl; rewrite IH; reflexivity.
Qed.

Lemma slices_cons2 {A} (l : list A) i j rest :
  slices l (i :: j :: rest) = firstn (j - i) (skipn i l) :: slices l (j :: rest).
Proof. reflexivity. Qed.

Lemma slices_S {A} (x : A) l idx : slices (x :: l) (map S idx) = slices l idx.
Proof.
  induction idx as [|i idx IH]; [reflexivity|].
  destruct idx as [|j idx]; [reflexivity|].
  cbn [map] in *. rewrite !slices_cons2. rewrite IH. reflexivity.
Qed.

Lemma slices_new {A} (x : A) l T : slices (x :: l) (0 :: map S (0 :: T)) = [x] :: slices l (0 :: T).
Proof.
  cbn [map]. rewrite slices_cons2. change (1 :: map S T) with (map S (0 :: T)). rewrite slices_S. reflexivity.
Qed.

Lemma slices_old {A} (x : A) l T s rest : slices l (0 :: T) = s :: rest ->
  slices (x :: l) (0 :: map S T) = (x :: s) :: rest.
Proof.
  destruct T as [|t T].
  - simpl. intros E. injection E as <- <-. reflexivity.
  - rewrite slices_cons2. intros E. injection E as <- <-. cbn [map]. rewrite slices_cons2.
    change (S t :: map S T) with (map S (t :: T)). rewrite slices_S. rewrite !Nat.sub_0_r. reflexivity.
Qed.

Lemma diffs_cons2 i j rest n : diffs (i :: j :: rest) n = (j - i) :: diffs (j :: rest) n.
Proof. reflexivity. Qed.

Lemma diffs_S idx n : diffs (map S idx) (S n) = diffs idx n.
Proof.
  induction idx as [|i idx IH]; [reflexivity|].
  destruct idx as [|j idx]; [reflexivity|].
  cbn [map] in *. rewrite !diffs_cons2. rewrite IH. reflexivity.
Qed.

Definition cuts (key : nat -> Z) (p : list nat) : list nat := nonzero 0 (changes (map key p)).

Lemma cuts_cons key j i p :
  exists T, cuts key (i :: p) = 0 :: T /\
    cuts key (j :: i :: p) = 0 :: map S (if Z.eqb (key j) (key i) then T else 0 :: T).
Proof.
  exists (nonzero 1 (changes_after (key i) (map key p))).
  split; [reflexivity|]. unfold cuts. cbn [map changes changes_after nonzero].
  rewrite (Z.eqb_sym (key i)). destruct (Z.eqb (key j) (key i)); cbn [negb]; rewrite nonzero_S; reflexivity.
Qed.

Lemma runs_head key i p : exists s rest, runs key (i :: p) = (key i, s) :: rest.
Proof.
  cbn [runs]. destruct (runs key p) as [|[k s] rest]; [eauto|].
  destruct (Z.eqb_spec (key i) k) as [->|]; eauto.
Qed.

Lemma cuts_runs key p :
  map (fun i => nth i (map key p) 0%Z) (cuts key p) = map fst (runs key p) /\
  slices p (cuts key p) = map snd (runs key p) /\
  diffs (cuts key p) (List.length p) = map (fun r => List.length (snd r)) (runs key p).
Proof.
  induction p as [|j p IH]; [repeat split|].
  destruct p as [|i p].
  - repeat split.
  - destruct (cuts_cons key j i p) as [T [E1 E2]]. rewrite E2. rewrite E1 in IH.
    destruct IH as [A [B C]].
    destruct (runs_head key i p) as [s [rest ER]]. rewrite ER in *.
    change (runs key (j :: i :: p)) with (match runs key (i :: p) with
      | [] => [(key j, [j])]
      | (k, s) :: rest => if Z.eqb (key j) k then (k, j :: s) :: rest else (key j, [j]) :: (k, s) :: rest
      end). rewrite ER.
    cbn [map fst snd] in A, B, C. injection A as A1.
    destruct (Z.eqb_spec (key j) (key i)) as [E|E].
    + split; [|split].
      * cbn [map fst nth]. rewrite E. f_equal. rewrite map_map. exact A1.
      * cbn [map snd]. apply slices_old. exact B.
      * cbn [map snd List.length] in *. destruct T as [|t T].
        -- cbn [map diffs] in *. injection C as C0 C1. rewrite <- C1, <- C0. f_equal; lia.
        -- cbn [map] in *. rewrite diffs_cons2 in *.
           pose proof (f_equal (hd 0) C) as C0. pose proof (f_equal (@tl nat) C) as C1. cbn [hd tl] in C0, C1.
           change (S t :: map S T) with (map S (t :: T)). rewrite diffs_S, C1. f_equal. lia.
    + split; [|split].
      * cbn [map fst nth]. f_equal. f_equal. rewrite map_map. exact A1.
      * rewrite slices_new, B. reflexivity.
      * cbn [map]. rewrite diffs_cons2. change (1 :: map S T) with (map S (0 :: T)).
        cbn [List.length]. rewrite diffs_S. cbn [List.length] in C. rewrite C. reflexivity.
Qed.

Lemma cumulative_cons b mask q : cumulative_code (true :: b :: mask) (S q)
  = if b then S (cumulative_code (true :: mask) q) else cumulative_code (true :: mask) q.
Proof.
  unfold cumulative_code. cbn [firstn filter]. destruct b; cbn [List.length pred]; reflexivity.
Qed.

Lemma code_runs key p q : q < List.length p ->
  let c := cumulative_code (changes (map key p)) q in
  c < List.length (runs key p) /\ nth c (map fst (runs key p)) 0%Z = key (nth q p 0).
Proof.
  revert q. induction p as [|j p IH]; intros q Hq; [simpl in Hq; lia|]. cbv zeta.
  destruct p as [|i p].
  - assert (q = 0) by (simpl in Hq; lia). subst. unfold cumulative_code. simpl. split; [lia|reflexivity].
  - change (runs key (j :: i :: p)) with (match runs key (i :: p) with
      | [] => [(key j, [j])]
      | (k, s) :: rest => if Z.eqb (key j) k then (k, j :: s) :: rest else (key j, [j]) :: (k, s) :: rest
      end).
    destruct (runs_head key i p) as [s [rest ER]].
    destruct q as [|q].
    + rewrite ER. cbn [map changes changes_after]. unfold cumulative_code. cbn [firstn filter].
      cbn [List.length pred nth]. destruct (Z.eqb_spec (key j) (key i)) as [E|E]; cbn [List.length nth map fst];
        (split; [lia|congruence]).
    + assert (Hq' : q < List.length (i :: p)) by (simpl in *; lia).
      destruct (IH q Hq') as [I1 I2]. rewrite ER in *.
      cbn [map changes changes_after] in *. rewrite cumulative_cons.
      cbn [nth] in *. rewrite (Z.eqb_sym (key i)) .
      destruct (Z.eqb_spec (key j) (key i)) as [E|E]; cbn [negb].
      * cbn [List.length map fst] in *. split; assumption.
      * cbn [List.length map fst] in *. split; [lia|]. cbn [nth]. exact I2.
Qed.

Lemma runs_members key p t : In t (map fst (runs key p)) <-> exists j, In j p /\ key j = t.
Proof.
  induction p as [|j p IH].
  - simpl. split; [tauto|intros [j [[] _]]].
  - cbn [runs]. destruct (runs key p) as [|[k s] rest] eqn:ER.
    + simpl. split.
      * intros [<-|[]]. exists j; auto.
      * intros [i [[<-|Hi] E]]; [auto|]. exfalso. apply IH. exists i; auto.
    + destruct (Z.eqb_spec (key j) k) as [E|E]; cbn [map fst] in *.
      * rewrite IH. split.
        -- intros [i [Hi Ei]]. exists i; split; [right; assumption|assumption].
        -- intros [i [[<-|Hi] Ei]]; [|exists i; auto]. apply IH. left. congruence.
      * change (In t (key j :: k :: map fst rest)) with (key j = t \/ In t (k :: map fst rest)). rewrite IH. split.
        -- intros [<-|[i [Hi Ei]]]; [exists j; simpl; auto|exists i; simpl; auto].
        -- intros [i [[<-|Hi] Ei]]; [left; assumption|right; exists i; auto].
Qed.

Lemma filter_none {A} (f : A -> bool) l : (forall x, In x l -> f x = false) -> filter f l = [].
Proof.
  induction l as [|x l IH]; intros H; simpl; [reflexivity|].
  rewrite (H x) by (left; reflexivity). apply IH. intros; apply H; right; assumption.
Qed.

Lemma filter_step {A} (f : A -> bool) x l : filter f (x :: l) = if f x then x :: filter f l else filter f l.
Proof. reflexivity. Qed.

Lemma runs_sorted key p : StronglySorted (fun i j => (key i <= key j)%Z) p ->
  StronglySorted Z.lt (map fst (runs key p)) /\
  (forall k s, In (k, s) (runs key p) -> s = filter (fun j => Z.eqb (key j) k) p).
Proof.
  induction 1 as [|j p HS IH Hj]; [split; [constructor|intros ? ? []]|].
  destruct IH as [I1 I2]. cbn [runs].
  destruct p as [|i p].
  - simpl. split; [constructor; [constructor|constructor]|].
    intros k s [E|[]]. injection E as <- <-. rewrite Z.eqb_refl. reflexivity.
  - destruct (runs_head key i p) as [s0 [rest ER]]. rewrite ER in *.
    assert (Hji : (key j <= key i)%Z) by (rewrite Forall_forall in Hj; apply Hj; left; reflexivity).
    assert (Hmin : forall x, In x (i :: p) -> (key i <= key x)%Z).
    { inversion HS as [|? ? _ HF]; subst. intros x [<-|Hx]; [lia|]. rewrite Forall_forall in HF. apply HF; assumption. }
    cbn [map fst] in I1. inversion I1 as [|? ? I1a I1b]; subst.
    assert (Hrest : forall k s, In (k, s) rest -> (key i < k)%Z).
    { intros k s H. rewrite Forall_forall in I1b. apply I1b. apply in_map_iff. exists (k, s); auto. }
    destruct (Z.eqb_spec (key j) (key i)) as [E|E].
    + split; [cbn [map fst]; exact I1|].
      intros k s [Eq|Hk].
      * injection Eq as <- <-. rewrite filter_step, E, Z.eqb_refl. f_equal. apply I2. left; reflexivity.
      * rewrite filter_step, E. specialize (Hrest k s Hk).
        destruct (Z.eqb_spec (key i) k); [lia|]. apply I2. right; assumption.
    + split.
      * cbn [map fst]. constructor; [exact I1|]. constructor; [lia|].
        rewrite Forall_forall in *. intros x Hx. specialize (I1b x Hx). lia.
      * intros k s [Eq|Hk].
        -- injection Eq as <- <-. rewrite filter_step, Z.eqb_refl. f_equal.
           symmetry. apply (filter_none (fun x => Z.eqb (key x) (key j)) (i :: p)).
           intros x Hx. specialize (Hmin x Hx). apply Z.eqb_neq. lia.
        -- assert (Hlt : (key j < k)%Z).
           { destruct Hk as [Eq|Hk]; [injection Eq as <- _; lia|specialize (Hrest k s Hk); lia]. }
           rewrite filter_step. destruct (Z.eqb_spec (key j) k); [lia|]. apply I2; assumption.
Qed.

(* ---------- positions ---------- *)

Lemma position_nth j p : In j p -> position j p < List.length p /\ nth (position j p) p 0 = j.
Proof.
  induction p as [|i p IH]; intros H; [destruct H|]. cbn [position].
  destruct (Nat.eqb_spec i j) as [->|Hne]; [simpl; split; [lia|reflexivity]|].
  destruct H as [->|H]; [contradiction|]. destruct (IH H). simpl. split; [lia|assumption].
Qed.

(* ---------- Groups ---------- *)

Lemma sum_rows_perm x l l' : Permutation l l' -> sum_rows x l = sum_rows x l'.
Proof. induction 1; simpl; unfold sum_rows in *; simpl; try lra. Qed.

Lemma filter_perm {A} (f : A -> bool) l l' : Permutation l l' -> Permutation (filter f l) (filter f l').
Proof.
  induction 1; simpl; try destruct (f x); try destruct (f y); eauto using Permutation.
Qed.

Section GroupsProofs.
  Variables (ids : list Z) (p : list nat).
  Hypothesis HP : is_argsort ids p.
  Let key := fun j => nth j ids 0%Z.

  Lemma length_p : List.length p = List.length ids.
  Proof. destruct HP as [A _]. rewrite (Permutation_length A). apply seq_length. Qed.

  Lemma unique_runs : group_unique ids p = map fst (runs key p).
  Proof. apply (cuts_runs key p). Qed.
  Lemma slices_runs : slices p (reduce_indices ids p) = map snd (runs key p).
  Proof. apply (cuts_runs key p). Qed.
  Lemma counts_runs : group_counts ids p = map (fun r => List.length (snd r)) (runs key p).
  Proof. unfold group_counts. rewrite <- length_p. apply (cuts_runs key p). Qed.

  Lemma run_rows k s : In (k, s) (runs key p) -> Permutation s (rows_of ids k).
  Proof.
    intros H. destruct HP as [A B]. rewrite (proj2 (runs_sorted key p B) k s H).
    apply filter_perm. exact A.
  Qed.

  Lemma group_unique_spec : sorted_distinct ids (group_unique ids p).
  Proof.
    rewrite unique_runs. split.
    - apply runs_sorted, HP.
    - intros t. rewrite runs_members. unfold key. destruct HP as [A _]. split.
      + intros [j [Hj <-]]. apply nth_In. apply (Permutation_in _ A), in_seq in Hj. lia.
      + intros Ht. apply (In_nth _ _ 0%Z) in Ht. destruct Ht as [j [Hj Ej]]. exists j. split; [|assumption].
        apply (Permutation_in _ (Permutation_sym A)), in_seq. lia.
  Qed.

  Lemma group_count_length : group_count ids p = List.length (group_unique ids p).
  Proof. unfold group_count, group_unique. rewrite map_length. reflexivity. Qed.

  Lemma group_sum_spec x :
    group_sum ids p x = map (fun t => sum_rows x (rows_of ids t)) (group_unique ids p).
  Proof.
    unfold group_sum. rewrite unique_runs, slices_runs, !map_map. apply map_ext_in.
    intros [k s] H. cbn [fst snd].
    rewrite <- (sum_rows_perm x _ _ (run_rows k s H)). unfold sum_rows.
    clear. induction s; simpl; [reflexivity|]. rewrite IHs. reflexivity.
  Qed.

  Lemma group_counts_spec :
    group_counts ids p = map (fun t => List.length (rows_of ids t)) (group_unique ids p).
  Proof.
    rewrite counts_runs, unique_runs, map_map. apply map_ext_in. intros [k s] H. cbn [fst snd].
    apply Permutation_length, run_rows, H.
  Qed.

  Lemma combine_map {A B C} (f : A -> B) (g : A -> C) l :
    combine (map f l) (map g l) = map (fun x => (f x, g x)) l.
  Proof. induction l as [|x l IH]; simpl; [reflexivity|]. rewrite IH. reflexivity. Qed.

  Lemma group_mean_spec x :
    group_mean ids p x
    = map (fun t => (sum_rows x (rows_of ids t) / INR (List.length (rows_of ids t)))%R) (group_unique ids p).
  Proof.
    unfold group_mean. rewrite group_sum_spec, group_counts_spec, combine_map, map_map. reflexivity.
  Qed.

  Lemma group_code_spec j : j < List.length ids ->
    group_code ids p j < group_count ids p /\
    nth (group_code ids p j) (group_unique ids p) 0%Z = nth j ids 0%Z.
  Proof.
    intros Hj. destruct HP as [A _].
    assert (HIn : In j p) by (apply (Permutation_in _ (Permutation_sym A)), in_seq; lia).
    destruct (position_nth j p HIn) as [P1 P2].
    destruct (code_runs key p (position j p) P1) as [C1 C2]. rewrite P2 in C2.
    rewrite group_count_length, unique_runs, map_length. split; [exact C1|exact C2].
  Qed.

  Lemma group_expand_spec (f : Z -> R) j : j < List.length ids ->
    group_expand ids p (map f (group_unique ids p)) j = f (nth j ids 0%Z).
  Proof.
    intros Hj. destruct (group_code_spec j Hj) as [A B]. unfold group_expand.
    rewrite group_count_length in A.
    rewrite (nth_indep _ 0%R (f 0%Z)) by (rewrite map_length; assumption).
    rewrite map_nth, B. reflexivity.
  Qed.
End GroupsProofs.

Lemma stable_is_argsort ids p : is_stable_argsort ids p -> is_argsort ids p.
Proof.
  intros [A B]. split; [assumption|]. clear A. induction B as [|a l HS IH HF]; constructor; [assumption|].
  eapply Forall_impl; [|exact HF]. cbv beta. intros b Hb. lia.
Qed.

Lemma filter_ss {A} (R : A -> A -> Prop) f l : StronglySorted R l -> StronglySorted R (filter f l).
Proof.
  induction 1 as [|a l HS IH HF]; simpl; [constructor|]. destruct (f a); [|assumption].
  constructor; [assumption|]. rewrite Forall_forall in *. intros x Hx. apply filter_In in Hx. apply HF, Hx.
Qed.

Lemma ss_seq a n : StronglySorted lt (seq a n).
Proof.
  revert a. induction n as [|n IH]; intros a; simpl; constructor; [apply IH|].
  rewrite Forall_forall. intros x Hx. apply in_seq in Hx. lia.
Qed.

Lemma ss_unique (l l' : list nat) : StronglySorted lt l -> StronglySorted lt l' -> Permutation l l' -> l = l'.
Proof.
  revert l'. induction l as [|a l IH]; intros l' H H' P.
  - apply Permutation_nil in P. congruence.
  - destruct l' as [|b l']; [apply Permutation_sym, Permutation_nil in P; discriminate|].
    inversion H as [|? ? HS HF]; subst. inversion H' as [|? ? HS' HF']; subst.
    rewrite Forall_forall in HF, HF'.
    assert (E : a = b).
    { assert (Ha : In a (b :: l')) by (eapply Permutation_in; [exact P|left; reflexivity]).
      assert (Hb : In b (a :: l)) by (eapply Permutation_in; [exact (Permutation_sym P)|left; reflexivity]).
      destruct Ha as [|Ha]; [congruence|]. destruct Hb as [|Hb]; [congruence|].
      specialize (HF _ Hb). specialize (HF' _ Ha). lia. }
    subst b. f_equal. apply IH; try assumption. eapply Permutation_cons_inv; exact P.
Qed.

Lemma get_indices_spec ids p : is_stable_argsort ids p ->
  get_indices ids p = map (fun t => (t, rows_of ids t)) (group_unique ids p).
Proof.
  intros HS. assert (HP := stable_is_argsort ids p HS).
  unfold get_indices. rewrite (unique_runs ids p), (slices_runs ids p), combine_map, map_map.
  apply map_ext_in. intros [k s] H. cbn [fst snd]. f_equal.
  apply ss_unique.
  - destruct HP as [A B]. rewrite (proj2 (runs_sorted _ p B) k s H).
    destruct HS as [_ SS]. clear -SS. induction SS as [|a l HS IH HF]; simpl; [constructor|].
    destruct (Z.eqb_spec (nth a ids 0%Z) k) as [E|E]; [|assumption]. constructor; [assumption|].
    rewrite Forall_forall in *. intros x Hx. apply filter_In in Hx. destruct Hx as [Hx Ex].
    apply Z.eqb_eq in Ex. specialize (HF x Hx). lia.
  - apply filter_ss, ss_seq.
  - apply (run_rows ids p HP); assumption.
Qed.

Lemma insert_by_perm key j l : Permutation (insert_by key j l) (j :: l).
Proof.
  induction l as [|i l IH]; simpl; [constructor; constructor|].
  destruct (Z.leb (key j) (key i)); [reflexivity|].
  eapply perm_trans; [apply perm_skip, IH|apply perm_swap].
Qed.

Lemma insert_by_sorted key j l :
  (forall i, In i l -> j < i) ->
  StronglySorted (fun i k => (key i < key k)%Z \/ (key i = key k)%Z /\ i < k) l ->
  StronglySorted (fun i k => (key i < key k)%Z \/ (key i = key k)%Z /\ i < k) (insert_by key j l).
Proof.
  induction l as [|i l IH]; intros Hj HS; simpl; [repeat constructor|].
  inversion HS as [|? ? HS' HF]; subst. destruct (Z.leb_spec (key j) (key i)) as [L|L].
  - constructor; [assumption|]. constructor.
    + assert (j < i) by (apply Hj; left; reflexivity). lia.
    + rewrite Forall_forall in *. intros x Hx. specialize (HF x Hx).
      assert (j < x) by (apply Hj; right; assumption). lia.
  - constructor; [apply IH; [intros; apply Hj; right|]; assumption|].
    rewrite Forall_forall in *. intros x Hx.
    apply (Permutation_in _ (insert_by_perm key j l)) in Hx. destruct Hx as [<-|Hx]; [lia|auto].
Qed.

Lemma stable_argsort_correct ids : is_stable_argsort ids (stable_argsort ids).
Proof.
  unfold is_stable_argsort, stable_argsort. set (key := fun j => nth j ids 0%Z).
  generalize (List.length ids). intros n.
  enough (H : forall a, Permutation (fold_right (insert_by key) [] (seq a n)) (seq a n) /\
     StronglySorted (fun i k => (key i < key k)%Z \/ (key i = key k)%Z /\ i < k)
       (fold_right (insert_by key) [] (seq a n))) by apply H.
  induction n as [|n IH]; intros a; simpl; [split; constructor|].
  destruct (IH (S a)) as [I1 I2]. split.
  - eapply perm_trans; [apply insert_by_perm|]. constructor. assumption.
  - apply insert_by_sorted; [|assumption]. intros i Hi.
    apply (Permutation_in _ I1), in_seq in Hi. lia.
Qed.

(** The rows of the distinct IDs partition all rows. *)
Lemma rows_partition ids u : sorted_distinct ids u -> Permutation (flat_map (rows_of ids) u) (seq 0 (List.length ids)).
Proof.
  intros [HS HI].
  assert (ND : NoDup u).
  { clear HI. induction HS as [|t u HS IH HF]; constructor; [|assumption].
    rewrite Forall_forall in HF. intros H. specialize (HF t H). lia. }
  apply NoDup_Permutation.
  - clear HS HI. induction ND as [|t u Hn ND IH]; simpl; [constructor|].
    assert (NA : forall l l' : list nat, NoDup l -> NoDup l' -> (forall x, In x l -> ~ In x l') -> NoDup (l ++ l')).
    { clear. intros l l' H H' D. induction H as [|x l Hx H IH]; simpl; [assumption|].
      constructor; [|apply IH; intros; apply D; right; assumption].
      rewrite in_app_iff. intros [|Hc]; [contradiction|]. apply (D x); [left; reflexivity|assumption]. }
    apply NA; [apply NoDup_filter, seq_NoDup|assumption|].
    intros x Hx Hf. apply filter_In in Hx. destruct Hx as [_ Ex]. apply Z.eqb_eq in Ex.
    apply in_flat_map in Hf. destruct Hf as [t' [Ht' Hx']]. apply filter_In in Hx'. destruct Hx' as [_ Ex'].
    apply Z.eqb_eq in Ex'. congruence.
  - apply seq_NoDup.
  - intros j. rewrite in_flat_map. split.
    + intros [t [_ Hj]]. apply filter_In in Hj. apply Hj.
    + intros Hj. exists (nth j ids 0%Z). split.
      * apply HI, nth_In. apply in_seq in Hj. lia.
      * apply filter_In. split; [assumption|apply Z.eqb_refl].
Qed.

(* ---------- decimal strings ---------- *)

Lemma digit_value d : d < 10 -> nat_of_ascii (digit d) = 48 + d.
Proof. intros. unfold digit. apply nat_ascii_embedding. lia. Qed.

Lemma decimal_fuel_enough n : forall f g, n < f -> n < g -> decimal_fuel f n = decimal_fuel g n.
Proof.
  induction n as [n IH] using lt_wf_ind. intros f g Hf Hg.
  destruct f as [|f]; [lia|]. destruct g as [|g]; [lia|]. cbn [decimal_fuel].
  destruct (Nat.ltb_spec n 10) as [|H]; [reflexivity|].
  assert (n / 10 < n) by (apply Nat.div_lt; lia).
  rewrite (IH (n / 10) ltac:(assumption) f g) by lia. reflexivity.
Qed.

Lemma decimal_small n : n < 10 -> decimal n = [digit n].
Proof. intros H. unfold decimal. cbn [decimal_fuel]. apply Nat.ltb_lt in H. rewrite H. reflexivity. Qed.

Lemma decimal_big n : 10 <= n -> decimal n = decimal (n / 10) ++ [digit (n mod 10)].
Proof.
  intros H. unfold decimal at 1. cbn [decimal_fuel]. destruct (Nat.ltb_spec n 10); [lia|].
  f_equal. assert (n / 10 < n) by (apply Nat.div_lt; lia). apply decimal_fuel_enough; lia.
Qed.

Definition decimal_value (s : name) : nat := fold_left (fun a c => 10 * a + (nat_of_ascii c - 48)) s 0.

Lemma decimal_value_spec n : decimal_value (decimal n) = n.
Proof.
  induction n as [n IH] using lt_wf_ind. destruct (Nat.lt_ge_cases n 10) as [H|H].
  - rewrite decimal_small by assumption. unfold decimal_value. cbn [fold_left]. rewrite digit_value by lia. lia.
  - rewrite decimal_big by assumption. unfold decimal_value. rewrite fold_left_app. cbn [fold_left].
    fold (decimal_value (decimal (n / 10))). rewrite IH by (apply Nat.div_lt; lia).
    assert (n mod 10 < 10) by (apply Nat.mod_upper_bound; lia). rewrite digit_value by assumption.
    pose proof (Nat.div_mod n 10). lia.
Qed.

Lemma decimal_inj n m : decimal n = decimal m -> n = m.
Proof. intros H. rewrite <- (decimal_value_spec n), H. apply decimal_value_spec. Qed.

Lemma decimal_nonempty n : decimal n <> [].
Proof.
  destruct (Nat.lt_ge_cases n 10) as [H|H]; [rewrite decimal_small by assumption; discriminate|].
  rewrite decimal_big by assumption. intros E. apply app_eq_nil in E. destruct E; discriminate.
Qed.

(** Proper prefixes of decimal strings are decimal strings of smaller numbers. *)
Lemma decimal_prefix n a b : decimal n = a ++ b -> a <> [] -> b <> [] -> exists m, m < n /\ a = decimal m.
Proof.
  revert a b. induction n as [n IH] using lt_wf_ind. intros a b E Ha Hb.
  destruct (Nat.lt_ge_cases n 10) as [H|H].
  - rewrite decimal_small in E by assumption. destruct a as [|x a]; [contradiction|].
    injection E as _ E. symmetry in E. apply app_eq_nil in E. destruct E; contradiction.
  - rewrite decimal_big in E by assumption. assert (L : n / 10 < n) by (apply Nat.div_lt; lia).
    destruct (exists_last Hb) as [b' [c ->]]. rewrite app_assoc in E. apply app_inj_tail in E.
    destruct E as [E _]. destruct b' as [|y b'].
    + rewrite app_nil_r in E. exists (n / 10). split; [assumption|congruence].
    + destruct (IH (n / 10) L a (y :: b') E Ha ltac:(discriminate)) as [m [Hm ->]].
      exists m. split; [lia|reflexivity].
Qed.

(* ---------- mappings ---------- *)

Lemma name_eqb_spec a b : reflect (a = b) (name_eqb a b).
Proof. unfold name_eqb. destruct (list_eq_dec ascii_dec a b); constructor; assumption. Qed.
Lemma name_eqb_refl a : name_eqb a a = true.
Proof. destruct (name_eqb_spec a a); congruence. Qed.

Section MappingProofs.
  Context {V : Type}.
  Implicit Types m : @mapping V.

  Lemma lookup_in m k v : lookup m k = Some v -> In (k, v) m.
  Proof.
    induction m as [|[k' v'] m IH]; simpl; [discriminate|].
    destruct (name_eqb_spec k' k) as [->|]; [intros E; injection E as ->; auto|auto].
  Qed.

  Lemma lookup_none m k : lookup m k = None <-> ~ In k (map fst m).
  Proof.
    induction m as [|[k' v'] m IH]; simpl; [tauto|].
    destruct (name_eqb_spec k' k) as [->|N].
    - split; [discriminate|]. intros H. exfalso. apply H. left; reflexivity.
    - rewrite IH. tauto.
  Qed.

  Lemma lookup_nodup m k v : NoDup (map fst m) -> In (k, v) m -> lookup m k = Some v.
  Proof.
    induction m as [|[k' v'] m IH]; simpl; [tauto|]. intros ND. inversion ND as [|? ? Hn ND']; subst.
    intros [E|H].
    - injection E as -> ->. rewrite name_eqb_refl. reflexivity.
    - destruct (name_eqb_spec k' k) as [->|]; [|auto].
      exfalso. apply Hn. apply in_map_iff. exists (k, v). auto.
  Qed.

  Lemma assign_same m k v : lookup (assign m k v) k = Some v.
  Proof.
    induction m as [|[k' v'] m IH]; simpl; [rewrite name_eqb_refl; reflexivity|].
    destruct (name_eqb_spec k' k) as [->|N]; simpl; [rewrite name_eqb_refl; reflexivity|].
    destruct (name_eqb_spec k' k); [contradiction|assumption].
  Qed.
  Lemma assign_other m k v k2 : k2 <> k -> lookup (assign m k v) k2 = lookup m k2.
  Proof.
    intros N. induction m as [|[k' v'] m IH]; simpl.
    - destruct (name_eqb_spec k k2); [congruence|reflexivity].
    - destruct (name_eqb_spec k' k) as [->|N']; simpl.
      + destruct (name_eqb_spec k k2); [congruence|reflexivity].
      + destruct (name_eqb_spec k' k2); [reflexivity|assumption].
  Qed.

  Definition assign_all (es : list (name * matrix)) m : mapping :=
    fold_left (fun m kv => assign m (fst kv) (snd kv)) es m.

  Lemma assign_all_other es : forall m k, ~ In k (map fst es) -> lookup (assign_all es m) k = lookup m k.
  Proof.
    induction es as [|[k1 v1] es IH]; intros m k H; [reflexivity|]. cbn [assign_all fold_left fst snd].
    fold (assign_all es (assign m k1 v1)). simpl in H.
    rewrite IH by tauto. apply assign_other. intros ->. tauto.
  Qed.

  Lemma assign_all_in es : forall m k v, In (k, v) es ->
    (forall v', In (k, v') es -> v' = v) -> lookup (assign_all es m) k = Some v.
  Proof.
    induction es as [|[k1 v1] es IH]; intros m k v H U; [destruct H|].
    cbn [assign_all fold_left fst snd]. fold (assign_all es (assign m k1 v1)).
    destruct (in_dec (list_eq_dec ascii_dec) k (map fst es)) as [D|D].
    - apply in_map_iff in D. destruct D as [[k' v'] [E D]]. cbn in E. subst k'.
      apply IH; [|intros; apply U; right; assumption].
      rewrite <- (U v') by (right; assumption). assumption.
    - rewrite assign_all_other by assumption. destruct H as [E|H].
      + injection E as -> ->. apply assign_same.
      + exfalso. apply D. apply in_map_iff. exists (k, v); auto.
  Qed.


  (** The loop stops at the first missing index. *)
  Lemma extract_parts_fuel m key fuel : forall index,
    extract_parts fuel m key index = None ->
    forall i, index <= i < index + fuel -> In (key ++ decimal i) (map fst m).
  Proof.
    induction fuel as [|fuel IH]; intros index H i Hi; [lia|]. cbn [extract_parts] in H.
    destruct (lookup m (key ++ decimal index)) as [part|] eqn:E; [|discriminate].
    destruct (extract_parts fuel m key (S index)) eqn:E2; [destruct part; discriminate|].
    destruct (Nat.eq_dec i index) as [->|Ne].
    - apply lookup_in in E. apply in_map_iff. exists (key ++ decimal index, part). auto.
    - apply (IH (S index) E2). lia.
  Qed.

  Lemma extract_parts_terminates m key : extract_parts (S (List.length m)) m key 0 <> None.
  Proof.
    intros H. pose proof (extract_parts_fuel m key _ 0 H) as A.
    assert (ND : NoDup (map (fun i => key ++ decimal i) (seq 0 (S (List.length m))))).
    { apply FinFun.Injective_map_NoDup; [|apply seq_NoDup]. intros i j E.
      apply app_inv_head in E. apply decimal_inj. assumption. }
    assert (I : incl (map (fun i => key ++ decimal i) (seq 0 (S (List.length m)))) (map fst m)).
    { intros x Hx. apply in_map_iff in Hx. destruct Hx as [i [<- Hi]]. apply in_seq in Hi. apply A. lia. }
    pose proof (NoDup_incl_length ND I) as L. rewrite !map_length, seq_length in L. lia.
  Qed.

  Definition columns_at m (k : name) : @matrix V := match lookup m k with Some v => v | None => [] end.

  Lemma extract_parts_value m key fuel : forall index parts,
    extract_parts fuel m key index = Some parts ->
    exists K, index <= K /\ (forall i, index <= i < K -> lookup m (key ++ decimal i) <> None) /\
      lookup m (key ++ decimal K) = None /\
      concat parts = concat (map (fun i => columns_at m (key ++ decimal i)) (seq index (K - index))) /\
      (forall part, In part parts -> part <> []).
  Proof.
    induction fuel as [|fuel IH]; intros index parts H; [discriminate|]. cbn [extract_parts] in H.
    destruct (lookup m (key ++ decimal index)) as [part|] eqn:E.
    - destruct (extract_parts fuel m key (S index)) as [parts'|] eqn:E2; [|discriminate].
      destruct (IH _ _ E2) as [K [A [B [C [D F]]]]]. exists K. repeat split; [lia| |assumption| |].
      + intros i Hi. destruct (Nat.eq_dec i index) as [->|Ne]; [congruence|apply B; lia].
      + replace (K - index) with (S (K - S index)) by lia. cbn [seq map concat].
        unfold columns_at at 1. rewrite E. rewrite <- D.
        destruct part; injection H as <-; reflexivity.
      + destruct part; injection H as <-; [assumption|]. intros q [<-|Hq]; [discriminate|auto].
    - injection H as <-. exists index. rewrite Nat.sub_diag. repeat split; auto; try (intros; lia).
  Qed.

  Lemma extract_matrix_exact m key v : lookup m key = Some v ->
    extract_matrix m key = Some (match v with [] => None | _ => Some v end).
  Proof. intros H. unfold extract_matrix. rewrite H. destruct v; reflexivity. Qed.

  Lemma extract_matrix_stack m key : lookup m key = None ->
    exists K, (forall i, i < K -> lookup m (key ++ decimal i) <> None) /\
      lookup m (key ++ decimal K) = None /\
      extract_matrix m key
      = Some (match concat (map (fun i => columns_at m (key ++ decimal i)) (seq 0 K)) with
              | [] => None | c => Some c end).
  Proof.
    intros H. unfold extract_matrix. rewrite H.
    destruct (extract_parts (S (List.length m)) m key 0) as [parts|] eqn:E;
      [|exfalso; exact (extract_parts_terminates m key E)].
    destruct (extract_parts_value m key _ _ _ E) as [K [A [B [C [D F]]]]].
    exists K. split; [intros; apply B; lia|]. split; [assumption|].
    rewrite Nat.sub_0_r in D. rewrite <- D.
    destruct parts as [|q parts]; [reflexivity|].
    assert (q <> []) by (apply F; left; reflexivity). destruct q; [contradiction|reflexivity].
  Qed.

  (* ---------- data_to_dict ---------- *)

  Fixpoint split_entries (key : name) (index : nat) (cols : @matrix V) : list (name * matrix) :=
    match cols with
    | [] => []
    | c :: cols' => (key ++ decimal index, [c]) :: split_entries key (S index) cols'
    end.
  Definition field_entries (ignore_empty : bool) (kv : name * @matrix V) : list (name * matrix) :=
    match snd kv with
    | [] => if ignore_empty then [] else [(fst kv, [])]
    | [c] => [(fst kv, [c])]
    | v => split_entries (fst kv) 0 v
    end.

  Lemma split_columns_value names key cols : forall m index m',
    split_columns names m key index cols = Some m' ->
    m' = assign_all (split_entries key index cols) m /\
    (forall i, i < List.length cols -> ~ In (key ++ decimal (index + i)) names).
  Proof.
    induction cols as [|c cols IH]; intros m index m' H; cbn [split_columns] in H.
    - injection H as <-. split; [reflexivity|simpl; lia].
    - destruct (existsb (name_eqb (key ++ decimal index)) names) eqn:E; [discriminate|].
      destruct (IH _ _ _ H) as [A B]. split; [exact A|]. intros i Hi Hin.
      destruct i as [|i].
      + rewrite Nat.add_0_r in Hin. apply Bool.not_true_iff_false in E. apply E.
        apply existsb_exists. exists (key ++ decimal index). split; [assumption|apply name_eqb_refl].
      + apply (B i); [simpl in Hi; lia|]. replace (S index + i) with (index + S i) by lia. assumption.
  Qed.

  Lemma assign_all_app es es' m : assign_all (es ++ es') m = assign_all es' (assign_all es m).
  Proof. unfold assign_all. apply fold_left_app. Qed.

  Lemma dict_fields_value ig names fields : forall m m',
    dict_fields ig names m fields = Some m' ->
    m' = assign_all (flat_map (field_entries ig) fields) m /\
    (forall key cols i, In (key, cols) fields -> 2 <= List.length cols -> i < List.length cols ->
       ~ In (key ++ decimal i) names).
  Proof.
    induction fields as [|[key v] fields IH]; intros m m' H; cbn [dict_fields] in H.
    - injection H as <-. split; [reflexivity|intros ? ? ? []].
    - cbn [flat_map]. rewrite assign_all_app. unfold field_entries at 2. cbn [snd fst].
      destruct v as [|c [|c2 v]].
      + destruct ig.
        * destruct (IH _ _ H) as [A B]. split; [exact A|].
          intros k cols i [E|Hin]; [injection E as <- <-; simpl; lia|eauto].
        * destruct (IH _ _ H) as [A B]. split; [exact A|].
          intros k cols i [E|Hin]; [injection E as <- <-; simpl; lia|eauto].
      + destruct (IH _ _ H) as [A B]. split; [exact A|].
        intros k cols i [E|Hin]; [injection E as <- <-; simpl; lia|eauto].
      + destruct (split_columns names m key 0 (c :: c2 :: v)) as [m1|] eqn:E; [|discriminate].
        destruct (split_columns_value _ _ _ _ _ _ E) as [A1 B1].
        destruct (IH _ _ H) as [A B]. split; [rewrite <- A1; exact A|].
        intros k cols i [Eq|Hin]; [|eauto]. injection Eq as <- <-. intros _ Hi. exact (B1 i Hi).
  Qed.

  Lemma split_entries_in key cols : forall index k v, In (k, v) (split_entries key index cols) <->
    exists i, i < List.length cols /\ k = key ++ decimal (index + i) /\ v = [nth i cols []].
  Proof.
    induction cols as [|c cols IH]; intros index k v; cbn [split_entries].
    - split; [intros []|intros [i [Hi _]]; simpl in Hi; lia].
    - split.
      + intros [E|H].
        * injection E as <- <-. exists 0. rewrite Nat.add_0_r. simpl. split; [lia|split; reflexivity].
        * apply IH in H. destruct H as [i [A [B D]]]. exists (S i). subst. simpl.
          split; [lia|split; [|reflexivity]]. f_equal. f_equal. lia.
      + intros [i [A [B D]]]. destruct i as [|i].
        * left. subst. rewrite Nat.add_0_r. reflexivity.
        * right. apply IH. exists i. simpl in A. subst. split; [lia|split; [|reflexivity]].
          f_equal. f_equal. lia.
  Qed.

  Lemma field_entries_in ig key cols k v : In (k, v) (field_entries ig (key, cols)) <->
    (k = key /\ v = cols /\ (List.length cols = 1 \/ List.length cols = 0 /\ ig = false)) \/
    (2 <= List.length cols /\ exists i, i < List.length cols /\ k = key ++ decimal i /\ v = [nth i cols []]).
  Proof.
    unfold field_entries. cbn [fst snd]. destruct cols as [|c [|c2 cols]].
    - destruct ig; simpl.
      + split; [tauto|]. intros [[_ [_ [H|[_ H]]]]|[H _]]; try discriminate; lia.
      + split.
        * intros [E|[]]. injection E as <- <-. left. auto.
        * intros [[-> [-> _]]|[H _]]; [auto|lia].
    - simpl. split.
      + intros [E|[]]. injection E as <- <-. auto.
      + intros [[-> [-> _]]|[H _]]; [auto|lia].
    - rewrite split_entries_in. split.
      + intros [i [A [B D]]]. right. split; [simpl; lia|]. exists i. auto.
      + intros [[_ [_ [H|[H _]]]]|[_ [i [A [B C]]]]]; [simpl in H; lia|simpl in H; lia|].
        exists i. auto.
  Qed.

  Section Dict.
    Variables (ig : bool) (fields m : @mapping V).
    Hypothesis ND : NoDup (map fst fields).
    Hypothesis OK : data_to_dict ig fields = Some m.

    Lemma fields_unique key c c' : In (key, c) fields -> In (key, c') fields -> c = c'.
    Proof.
      intros A B. apply (lookup_nodup _ _ _ ND) in A. apply (lookup_nodup _ _ _ ND) in B. congruence.
    Qed.

    Lemma split_not_name key cols i : In (key, cols) fields -> 2 <= List.length cols -> i < List.length cols ->
      ~ In (key ++ decimal i) (map fst fields).
    Proof. exact (proj2 (dict_fields_value _ _ _ _ _ OK) key cols i). Qed.

    Lemma in_names key cols : In (key, cols) fields -> In key (map fst fields).
    Proof. intros H. apply in_map_iff. exists (key, cols). auto. Qed.

    (** Two split names coincide only when they are the same column of the same field. *)
    Lemma split_names_distinct key cols i key' cols' i' :
      In (key, cols) fields -> 2 <= List.length cols -> i <= List.length cols ->
      In (key', cols') fields -> 2 <= List.length cols' -> i' < List.length cols' ->
      key ++ decimal i = key' ++ decimal i' -> key = key' /\ i = i'.
    Proof.
      intros F L Hi F' L' Hi' E.
      assert (A : key = key' -> i = i').
      { intros ->. apply app_inv_head in E. apply decimal_inj; assumption. }
      destruct (Nat.eq_dec (List.length key) (List.length key')) as [El|El].
      - assert (key = key').
        { apply (f_equal (firstn (List.length key))) in E.
          rewrite El in E at 2. rewrite !firstn_app, !Nat.sub_diag, !firstn_all, !firstn_O, !app_nil_r in E. exact E. }
        auto.
      - exfalso. destruct (Nat.lt_ge_cases (List.length key) (List.length key')) as [Lt|Ge].
        + assert (S : exists l, key' = key ++ l).
          { exists (skipn (List.length key) key').
            apply (f_equal (firstn (List.length key))) in E.
            rewrite !firstn_app, Nat.sub_diag, firstn_all, firstn_O, app_nil_r in E.
            replace (List.length key - List.length key') with 0 in E by lia. rewrite firstn_O, app_nil_r in E.
            rewrite E at 1. symmetry. apply firstn_skipn. }
          destruct S as [l ->]. rewrite <- app_assoc in E. apply app_inv_head in E.
          rewrite app_length in *.
          destruct (decimal_prefix i l (decimal i') E) as [q [Hq ->]].
          { intros ->. simpl in *. lia. } { apply decimal_nonempty. }
          apply (split_not_name key cols q F L); [lia|]. eapply in_names; exact F'.
        + assert (S : exists l, key = key' ++ l).
          { exists (skipn (List.length key') key).
            apply (f_equal (firstn (List.length key'))) in E.
            rewrite !firstn_app, Nat.sub_diag, firstn_all, firstn_O, app_nil_r in E.
            replace (List.length key' - List.length key) with 0 in E by lia. rewrite firstn_O, app_nil_r in E.
            rewrite <- E at 1. symmetry. apply firstn_skipn. }
          destruct S as [l ->]. rewrite <- app_assoc in E. apply app_inv_head in E.
          rewrite app_length in *. symmetry in E.
          destruct (decimal_prefix i' l (decimal i) E) as [q [Hq ->]].
          { intros ->. simpl in *. lia. } { apply decimal_nonempty. }
          apply (split_not_name key' cols' q F' L'); [lia|]. eapply in_names; exact F.
    Qed.

    Lemma entries_unique k v v' :
      In (k, v) (flat_map (field_entries ig) fields) -> In (k, v') (flat_map (field_entries ig) fields) -> v' = v.
    Proof.
      intros H H'. apply in_flat_map in H. apply in_flat_map in H'.
      destruct H as [[key cols] [F H]]. destruct H' as [[key' cols'] [F' H']].
      apply field_entries_in in H. apply field_entries_in in H'.
      destruct H as [[-> [-> L]]|[L [i [Hi [-> ->]]]]]; destruct H' as [[E' [-> L']]|[L' [i' [Hi' [E' ->]]]]].
      - subst key'. eapply fields_unique; eassumption.
      - subst key. exfalso. apply (split_not_name key' cols' i' F' L' Hi'). eapply in_names; exact F.
      - subst key'. exfalso. apply (split_not_name key cols i F L Hi). eapply in_names; exact F'.
      - destruct (split_names_distinct key cols i key' cols' i') as [-> ->]; try assumption; [lia|].
        rewrite (fields_unique key' cols cols') by assumption. reflexivity.
    Qed.

    Lemma dict_lookup k v : In (k, v) (flat_map (field_entries ig) fields) -> lookup m k = Some v.
    Proof.
      intros H. rewrite (proj1 (dict_fields_value _ _ _ _ _ OK)).
      apply assign_all_in; [assumption|]. intros v' H'. eapply entries_unique; eassumption.
    Qed.

    Lemma dict_absent k : ~ In k (map fst (flat_map (field_entries ig) fields)) -> lookup m k = None.
    Proof.
      intros H. rewrite (proj1 (dict_fields_value _ _ _ _ _ OK)). rewrite assign_all_other by assumption. reflexivity.
    Qed.

    Lemma dict_single key c : In (key, [c]) fields -> lookup m key = Some [c].
    Proof.
      intros F. apply dict_lookup. apply in_flat_map. exists (key, [c]). split; [assumption|]. left; reflexivity.
    Qed.

    Lemma dict_column key cols i : In (key, cols) fields -> 2 <= List.length cols -> i < List.length cols ->
      lookup m (key ++ decimal i) = Some [nth i cols []].
    Proof.
      intros F L Hi. apply dict_lookup. apply in_flat_map. exists (key, cols). split; [assumption|].
      apply field_entries_in. right. split; [assumption|]. exists i. auto.
    Qed.

    Lemma concat_singletons {A} (d : A) l : concat (map (fun i => [nth i l d]) (seq 0 (List.length l))) = l.
    Proof.
      rewrite <- (map_map (fun i => nth i l d) (fun x => [x])).
      assert (E : map (fun i => nth i l d) (seq 0 (List.length l)) = l).
      { clear. induction l as [|x l IH]; simpl; [reflexivity|]. f_equal. rewrite <- seq_shift, map_map. exact IH. }
      rewrite E. clear. induction l as [|x l IH]; simpl; [reflexivity|]. rewrite IH. reflexivity.
    Qed.

    Lemma dict_read_back key cols : In (key, cols) fields -> cols <> [] ->
      (2 <= List.length cols -> ~ In (key ++ decimal (List.length cols)) (map fst fields)) ->
      extract_matrix m key = Some (Some cols).
    Proof.
      intros F N G. destruct (le_lt_dec 2 (List.length cols)) as [L|L].
      - assert (A : lookup m key = None).
        { apply dict_absent. intros H. apply in_map_iff in H. destruct H as [[k v] [E H]]. cbn [fst] in E. subst k.
          apply in_flat_map in H. destruct H as [[key' cols'] [F' H]]. apply field_entries_in in H.
          destruct H as [[<- [-> L']]|[L' [i' [Hi' [E' _]]]]].
          - rewrite (fields_unique key cols cols' F F') in L. lia.
          - apply (split_not_name key' cols' i' F' L' Hi'). rewrite <- E'. eapply in_names; exact F. }
        assert (B : lookup m (key ++ decimal (List.length cols)) = None).
        { apply dict_absent. intros H. apply in_map_iff in H. destruct H as [[k v] [E H]]. cbn [fst] in E. subst k.
          apply in_flat_map in H. destruct H as [[key' cols'] [F' H]]. apply field_entries_in in H.
          destruct H as [[E [_ _]]|[L' [i' [Hi' [E' _]]]]].
          - apply (G L). rewrite E. eapply in_names; exact F'.
          - destruct (split_names_distinct key cols (List.length cols) key' cols' i') as [E1 E2]; try assumption; try lia.
            subst key' i'. rewrite (fields_unique key cols cols' F F') in Hi'. lia. }
        destruct (extract_matrix_stack m key A) as [K [P [Q R]]]. rewrite R.
        assert (K = List.length cols).
        { destruct (Nat.lt_trichotomy K (List.length cols)) as [H|[H|H]]; [|assumption|].
          - rewrite (dict_column key cols K F L H) in Q. discriminate.
          - exfalso. exact (P _ H B). }
        subst K. f_equal.
        rewrite (map_ext_in _ (fun i => [nth i cols []])).
        + rewrite concat_singletons. destruct cols; [contradiction|reflexivity].
        + intros i Hi. apply in_seq in Hi. unfold columns_at. rewrite (dict_column key cols i F L) by lia. reflexivity.
      - destruct cols as [|c [|? ?]]; [contradiction| |simpl in L; lia].
        rewrite (extract_matrix_exact m key [c]); [reflexivity|]. apply dict_single. assumption.
    Qed.
  End Dict.

  (* ---------- update_matrices ---------- *)

  Lemma has_duplicates_spec names : has_duplicates names = false <-> NoDup names.
  Proof.
    induction names as [|n names IH]; simpl; [split; [constructor|reflexivity]|].
    rewrite orb_false_iff, IH. split.
    - intros [A B]. constructor; [|assumption]. intros H. apply Bool.not_true_iff_false in A. apply A.
      apply existsb_exists. exists n. split; [assumption|apply name_eqb_refl].
    - intros H. inversion H as [|? ? A B]; subst. split; [|assumption]. apply Bool.not_true_iff_false. intros C.
      apply existsb_exists in C. destruct C as [x [C D]]. destruct (name_eqb_spec n x); [subst; contradiction|discriminate].
  Qed.

  Definition updated_names (update : list (fkey * option (@matrix V))) : list name := map (fun kv => snd (fst kv)) update.

  Lemma updated_existsb update n :
    (forall kv, In kv update -> fst (fst kv) = None) ->
    existsb (fun kv : fkey * option (@matrix V) => fkey_eqb (fst kv) (None, n)) update = true
    <-> In n (updated_names update).
  Proof.
    intros P. rewrite existsb_exists. unfold updated_names. rewrite in_map_iff. split.
    - intros [kv [A B]]. exists kv. split; [|assumption]. unfold fkey_eqb in B. apply andb_prop in B.
      destruct B as [_ B]. cbn [snd] in B. destruct (name_eqb_spec (snd (fst kv)) n) as [E|E]; [exact E|discriminate B].
    - intros [[[t n'] v] [A B]]. exists ((t, n'), v). split; [assumption|]. pose proof (P _ B) as E.
      cbn [fst snd] in A, E |- *. subst. unfold fkey_eqb. cbn [fst snd]. apply name_eqb_refl.
  Qed.

  Lemma update_result (fields : list (@field V)) update :
    NoDup (map field_name fields) -> NoDup (updated_names update) ->
    (forall kv, In kv update -> fst (fst kv) = None) ->
    exists result, update_matrices fields update = Some result /\
      NoDup (map field_name result) /\
      (forall n v, In ((None, n), v) update ->
         In {| field_name := n; field_title := None; field_matrix := match v with None => [] | Some a => a end |} result) /\
      (forall f, In f fields -> ~ In (field_name f) (updated_names update) -> In f result) /\
      (forall n, In n (map field_name result) <-> In n (updated_names update) \/ In n (map field_name fields)).
  Proof.
    intros N1 N2 P. unfold update_matrices, structure_matrices.
    set (kept := filter _ fields).
    match goal with |- context [has_duplicates (map _ ?l)] => set (full := l) end.
    assert (EN : map (fun kv : fkey * option (@matrix V) => snd (fst kv)) full = updated_names update ++ map field_name kept).
    { unfold full. rewrite map_app, map_map. reflexivity. }
    assert (KI : forall f, In f kept <-> In f fields /\ ~ In (field_name f) (updated_names update)).
    { intros f. unfold kept. rewrite filter_In, negb_true_iff, <- Bool.not_true_iff_false.
      rewrite (updated_existsb update (field_name f) P). reflexivity. }
    assert (ND : NoDup (map (fun kv : fkey * option (@matrix V) => snd (fst kv)) full)).
    { rewrite EN.
      assert (NK : NoDup (map field_name kept)).
      { unfold kept. clear -N1. induction fields as [|f fields IH]; simpl; [constructor|].
        cbn [map] in N1. inversion N1 as [|? ? A B]; subst. destruct (negb _); [|auto]. cbn [map].
        constructor; [|auto]. intros H. apply A. apply in_map_iff in H. destruct H as [g [E H]].
        apply filter_In in H. apply in_map_iff. exists g. tauto. }
      assert (D : forall x, In x (updated_names update) -> ~ In x (map field_name kept)).
      { intros x Hx Hk. apply in_map_iff in Hk. destruct Hk as [g [<- Hg]]. apply KI in Hg. tauto. }
      revert N2 D. generalize (updated_names update). intros l N2 D.
      induction N2 as [|x l Hx N2 IH]; simpl; [assumption|]. constructor.
      - rewrite in_app_iff. intros [|H]; [contradiction|]. apply (D x); [left; reflexivity|assumption].
      - apply IH. intros y Hy. apply D. right; assumption. }
    match goal with |- context [if has_duplicates ?l then _ else _] =>
      replace (has_duplicates l) with false by (symmetry; apply has_duplicates_spec; exact ND) end.
    eexists. split; [reflexivity|]. rewrite map_map. cbn [field_name]. split; [exact ND|].
    split; [|split].
    - intros n v H. apply in_map_iff. exists ((None, n), v). split; [reflexivity|].
      unfold full. apply in_app_iff. left; assumption.
    - intros f H Hn. apply in_map_iff. exists ((field_title f, field_name f), Some (field_matrix f)).
      split; [destruct f; reflexivity|]. unfold full. apply in_app_iff. right. apply in_map_iff.
      exists f. split; [reflexivity|]. apply KI. tauto.
    - intros n. match goal with |- In n ?l <-> _ =>
        change l with (map (fun kv : fkey * option (@matrix V) => snd (fst kv)) full) end.
      rewrite EN, in_app_iff. split.
      + intros [H|H]; [tauto|]. right. apply in_map_iff in H. destruct H as [f [<- Hf]]. apply KI in Hf.
        apply in_map. tauto.
      + intros [H|H]; [tauto|].
        destruct (in_dec (list_eq_dec ascii_dec) n (updated_names update)) as [D|D]; [tauto|].
        right. apply in_map_iff in H. destruct H as [f [<- Hf]]. apply in_map. apply KI. tauto.
  Qed.

  (** Naming an existing field by its title repeats it. *)
  Lemma update_titled (fields : list (@field V)) t n v f :
    In f fields -> field_name f = n -> update_matrices fields [((Some t, n), v)] = None.
  Proof.
    intros H E. unfold update_matrices, structure_matrices.
    match goal with |- context [has_duplicates ?l] => assert (D : has_duplicates l = true) end.
    { apply Bool.not_false_iff_true. rewrite has_duplicates_spec. intros ND.
      cbn [app map fst snd] in ND. inversion ND as [|? ? A B]; subst. apply A.
      rewrite map_map. cbn [fst snd]. apply in_map. apply filter_In. split; [assumption|].
      reflexivity. }
    rewrite D. reflexivity.
  Qed.

  Lemma read_field_in (fields : list (@field V)) f :
    NoDup (map field_name fields) -> In f fields -> read_field fields (field_name f) = Some (field_matrix f).
  Proof.
    intros ND H. unfold read_field. induction fields as [|g fields IH]; [destruct H|].
    cbn [map] in ND. inversion ND as [|? ? A B]; subst. cbn [find].
    destruct (name_eqb_spec (field_name g) (field_name f)) as [E|E].
    - destruct H as [->|H]; [reflexivity|]. exfalso. apply A. rewrite E. apply in_map. assumption.
    - destruct H as [->|H]; [congruence|]. apply IH; assumption.
  Qed.
End MappingProofs.

(* ---------- parallel ---------- *)

Section ParallelProofs.
  Variable pi : bool.

  Fixpoint statement_ind' (P : statement -> Prop)
    (HU : P Use) (HR : P Raise)
    (HP : forall n u body, Forall P body -> P (Parallel n u body))
    (HT : forall body, Forall P body -> P (Try body)) (c : statement) : P c :=
    let all := fix all (body : list statement) : Forall P body :=
      match body with
      | [] => Forall_nil P
      | c :: body' => Forall_cons c (statement_ind' P HU HR HP HT c) (all body')
      end in
    match c with
    | Use => HU
    | Raise => HR
    | Parallel n u body => HP n u body (all body)
    | Try body => HT body (all body)
    end.

  Definition run_body := fix run (body : list statement) (s : pool_state) : result :=
    match body with
    | [] => {| events := []; state := s; raised := false |}
    | c :: body' =>
        let r := execute pi c s in
        if raised r then r
        else let r' := run body' (state r) in
             {| events := events r ++ events r'; state := state r'; raised := raised r' |}
    end.

  Lemma run_body_all body s : run_body body s = execute_all pi body s.
  Proof.
    revert s. induction body as [|c body IH]; intros s; [reflexivity|]. cbn [run_body execute_all]. cbv zeta.
    destruct (raised (execute pi c s)); [reflexivity|]. rewrite IH. reflexivity.
  Qed.

  Lemma parallel_ext b b' n u s : (forall s, b s = b' s) -> parallel pi b n u s = parallel pi b' n u s.
  Proof.
    intros E. unfold parallel. destruct n as [n|]; [|reflexivity].
    destruct (n <? 1)%Z; [reflexivity|]. destruct (n =? 1)%Z; [apply E|].
    destruct u; [destruct pi|]; cbv zeta; rewrite ?E; reflexivity.
  Qed.

  Lemma execute_parallel n u body s :
    execute pi (Parallel n u body) s = parallel pi (execute_all pi body) n u s.
  Proof.
    change (execute pi (Parallel n u body) s) with (parallel pi (run_body body) n u s).
    apply parallel_ext. apply run_body_all.
  Qed.
  Lemma execute_try body s :
    execute pi (Try body) s = {| events := events (execute_all pi body s); state := state (execute_all pi body s); raised := false |}.
  Proof.
    change (execute pi (Try body) s) with
      {| events := events (run_body body s); state := state (run_body body s); raised := false |}.
    rewrite run_body_all. reflexivity.
  Qed.

  (** A property of states kept by every statement of a body is kept by the body. *)
  Lemma body_invariant (Q : pool_state -> pool_state -> Prop) body :
    (forall s, Q s s) -> (forall a b c, Q a b -> Q b c -> Q a c) ->
    Forall (fun c => forall s, Q s (state (execute pi c s))) body ->
    forall s, Q s (state (execute_all pi body s)).
  Proof.
    intros R T. induction 1 as [|c body Hc H IH]; intros s; [apply R|]. cbn [execute_all]. cbv zeta.
    destruct (raised (execute pi c s)); [apply Hc|]. cbn [state]. eapply T; [apply Hc|apply IH].
  Qed.

  Lemma serial_kept c : forall s, pool s = None -> pool (state (execute pi c s)) = None.
  Proof.
    induction c as [| |n u body IH|body IH] using statement_ind'; intros s Hs.
    - exact Hs.
    - exact Hs.
    - rewrite execute_parallel. unfold parallel. destruct n as [n|]; [|exact Hs].
      destruct (n <? 1)%Z; [exact Hs|]. destruct (n =? 1)%Z.
      + apply (body_invariant (fun a b => pool a = None -> pool b = None)); auto.
      + destruct u; [destruct pi; [reflexivity|exact Hs]|reflexivity].
    - rewrite execute_try. cbn [state].
      apply (body_invariant (fun a b => pool a = None -> pool b = None)); auto.
  Qed.

  Lemma recurse_kept c : forall s, recurse (state (execute pi c s)) = recurse s.
  Proof.
    induction c as [| |n u body IH|body IH] using statement_ind'; intros s.
    - reflexivity.
    - reflexivity.
    - assert (B : forall s, recurse (state (execute_all pi body s)) = recurse s).
      { intros s'. apply (body_invariant (fun a b => recurse b = recurse a)); try assumption; congruence. }
      rewrite execute_parallel. unfold parallel. destruct n as [n|]; [|reflexivity].
      destruct (n <? 1)%Z; [reflexivity|]. destruct (n =? 1)%Z; [apply B|].
      destruct u; [destruct pi; reflexivity|]. cbn [state recurse]. rewrite B. reflexivity.
    - rewrite execute_try. cbn [state].
      apply (body_invariant (fun a b => recurse b = recurse a)); try assumption; congruence.
  Qed.
End ParallelProofs.

(* ---------- finite differences ---------- *)

Local Open Scope R_scope.

Lemma sum_below_sumn n f : sum_below n f = sumn n f.
Proof. induction n as [|n IH]; [reflexivity|]. simpl. rewrite IH. reflexivity. Qed.

Lemma sumn_bump n g x k e : (k < n)%nat ->
  sumn n (fun j => g j * bump x k e j) = sumn n (fun j => g j * x j) + e * g k.
Proof.
  intros Hk. rewrite (sumn_ext n _ (fun j => g j * x j + (if Nat.eqb j k then g j * e else 0))).
  - rewrite sumn_plus, (sumn_delta n k (fun j => g j * e)) by assumption. ring.
  - intros j _. unfold bump. destruct (Nat.eqb j k); ring.
Qed.

Lemma quadratic_bump n c b A x k e : (k < n)%nat ->
  quadratic n c b A (bump x k e)
  = quadratic n c b A x + e * quadratic_gradient n b A x k + e * e * A k k.
Proof.
  intros Hk. unfold quadratic, quadratic_gradient. change sum_below with sumn.
  rewrite sumn_bump by assumption.
  rewrite (sumn_ext n (fun i => sumn n (fun j => A i j * bump x k e i * bump x k e j))
    (fun i => (sumn n (fun j => A i j * x j) + e * A i k) * bump x k e i)).
  2:{ intros i _. rewrite (sumn_ext n _ (fun j => bump x k e i * (A i j * bump x k e j)))
        by (intros; ring). rewrite sumn_scal, sumn_bump by assumption. ring. }
  rewrite sumn_bump by assumption.
  rewrite (sumn_ext n (fun j => (sumn n (fun j0 => A j j0 * x j0) + e * A j k) * x j)
    (fun j => sumn n (fun j0 => A j j0 * x j * x j0) + e * (A j k * x j))).
  2:{ intros i _. rewrite (sumn_ext n (fun j0 => A i j0 * x i * x j0) (fun j0 => (A i j0 * x j0) * x i))
        by (intros; ring). rewrite sumn_scal_r. ring. }
  rewrite sumn_plus, sumn_scal.
  rewrite (sumn_ext n (fun j => (A k j + A j k) * x j) (fun j => A k j * x j + A j k * x j)) by (intros; ring).
  rewrite sumn_plus. ring.
Qed.

Lemma finite_difference_quadratic n c b A x e k : (k < n)%nat -> e <> 0 ->
  finite_difference (quadratic n c b A) x e k = quadratic_gradient n b A x k.
Proof.
  intros Hk He. unfold finite_difference. rewrite !quadratic_bump by assumption. field. assumption.
Qed.

Lemma second_difference_quadratic n c b A x e k l : (k < n)%nat -> (l < n)%nat -> e <> 0 ->
  second_difference (quadratic n c b A) x e k l = quadratic_hessian A k l.
Proof.
  intros Hk Hl He. unfold second_difference. cbv zeta. rewrite !quadratic_bump by assumption.
  assert (G : forall e', quadratic_gradient n b A (bump x k e') l
    = quadratic_gradient n b A x l + e' * (A l k + A k l)).
  { intros e'. unfold quadratic_gradient. change sum_below with sumn. rewrite sumn_bump by assumption. ring. }
  rewrite !G. unfold quadratic_hessian. field. assumption.
Qed.
