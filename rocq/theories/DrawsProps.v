(** Properties of loaded and simulated variables of a simulation: C137. *)
From Coq Require Import Reals List Bool Arith Lia Lra Permutation FunctionalExtensionality.
From Verif Require Import DrawsModel DrawsSpec DrawsProofs.
Import ListNotations.

(** There is an order of the variables of formulations, which depends neither on data nor on draws, such that each variable is its
    field or, without one, the next block of draws; the generator is then at the next block. *)
Theorem C137_product_variables (name : Type) (eqb leb : name -> name -> bool) reserved formulations :
  (forall x y, eqb x y = true <-> x = y) -> total_order leb -> Forall (@NoDup name) formulations ->
  exists order, NoDup order /\
  (forall x, In x order <-> (exists names, In names formulations /\ In x names) /\ ~ In x reserved) /\
  forall stream N fields counts shares prices r,
    load_products name eqb leb stream N fields counts reserved shares prices formulations = Some r ->
    let first := (match shares with None => 1 | Some _ => 0 end + match prices with None => 1 | Some _ => 0 end)%nat in
    let missing := filter (fun x => match fields x with [] => true | _ => false end) order in
    (forall x, In x order -> exists c, lookup name eqb (drawn_variables name r) x = Some c /\
       (fields x = [c] \/ fields x = [] /\ exists k, nth_error missing k = Some x /\ c = block stream N (first + k))) /\
    next_position name r = ((first + length missing) * N)%nat.
Proof.
  intros EQ LE HN. exists (loaded_names eqb leb reserved [] formulations).
  split; [exact (loaded_names_nodup eqb leb EQ reserved formulations [] HN)|]. split.
  { intros x. rewrite (loaded_names_in eqb leb EQ). split; [tauto|]. intros [H1 H2]. repeat split; [exact H1|exact H2|intros []]. }
  intros stream N fields counts shares prices r E first missing. unfold load_products in E.
  destruct (initial_shares stream N counts shares 0) as [s p1] eqn:E1. destruct (initial_prices stream N prices p1) as [p p2] eqn:E2.
  destruct (load_formulations name eqb leb stream N fields reserved ([], p2) formulations) as [[m p3]|] eqn:E3; [|discriminate].
  injection E as <-. cbn [drawn_variables next_position].
  assert (P : p2 = (first * N)%nat).
  { unfold initial_shares, initial_prices, uniform in *. unfold first.
    destruct shares; injection E1 as _ <-; destruct prices; injection E2 as _ <-; cbn; lia. }
  destruct (load_formulations_spec eqb leb EQ stream N fields reserved formulations [] p2 m p3 E3 HN) as (A1 & _ & A3).
  cbn [names_of map] in A1, A3. split.
  - intros x Hx. destruct (A3 x Hx) as (c & Ec & [Hc|(Hc & k & Hk & ->)]); eexists; (split; [exact Ec|]); [now left|].
    right. split; [exact Hc|]. exists k. split; [exact Hk|]. apply functional_extensionality. intros i. unfold block. f_equal. rewrite P. lia.
  - rewrite A1, P. unfold missing, drawn. lia.
Qed.
Print Assumptions C137_product_variables.

(** Nothing depends on the order in which sets of names are iterated over. *)
Theorem C137_sets (name : Type) (eqb leb : name -> name -> bool) stream N fields counts reserved shares prices formulations formulations' :
  total_order leb -> Forall2 (@Permutation name) formulations formulations' ->
  load_products name eqb leb stream N fields counts reserved shares prices formulations =
  load_products name eqb leb stream N fields counts reserved shares prices formulations'.
Proof.
  intros LE H. unfold load_products. destruct (initial_shares _ _ _ _ _). destruct (initial_prices _ _ _ _).
  now rewrite (load_formulations_permutation eqb leb LE stream N fields reserved formulations formulations' _ H).
Qed.
Print Assumptions C137_sets.

(** The only error is about variables with several columns. *)
Theorem C137_errors (name : Type) (eqb leb : name -> name -> bool) stream N fields counts reserved shares prices formulations :
  (forall x y, eqb x y = true <-> x = y) -> total_order leb -> Forall (@NoDup name) formulations ->
  load_products name eqb leb stream N fields counts reserved shares prices formulations = None <->
  exists names x, In names formulations /\ In x names /\ ~ In x reserved /\ (1 < length (fields x))%nat.
Proof.
  intros EQ LE HN. unfold load_products. destruct (initial_shares _ _ _ _ _) as [s p1]. destruct (initial_prices _ _ _ _) as [p p2].
  destruct (load_formulations_fails eqb leb EQ stream N fields reserved formulations [] p2 HN) as [F1 F2].
  destruct (load_formulations name eqb leb stream N fields reserved ([], p2) formulations) as [[m p3]|] eqn:Q.
  - split; [discriminate|]. intros (names & x & H1 & H2 & H3 & H4). exfalso.
    enough (K : None = Some (m, p3)) by discriminate. etransitivity; [symmetry; apply F2|exact Q]. exists x. split; [|exact H4].
    apply (loaded_names_in eqb leb EQ). repeat split; [now exists names|exact H3|intros []].
  - split; [|reflexivity]. intros _. destruct (F1 Q) as (x & H1 & H2). apply (loaded_names_in eqb leb EQ) in H1.
    destruct H1 as ((names & H3 & H4) & H5 & _). now exists names, x.
Qed.
Print Assumptions C137_errors.

(** Simulated shares, from which prices and shares are found, leave a positive share of the outside good in each market. *)
Theorem C137_shares (name : Type) (eqb leb : name -> name -> bool) stream N fields market reserved prices formulations r t :
  load_products name eqb leb stream N fields (fun i => market_size market N (market i)) reserved None prices formulations = Some r ->
  (forall i, 0 <= stream i < 1)%R ->
  (forall i, 0 <= drawn_shares name r i)%R /\ (0 <= market_total market N t (drawn_shares name r) < 1)%R.
Proof.
  intros E HU. unfold load_products in E. cbn [initial_shares uniform] in E. unfold initial_shares, uniform in E.
  destruct (initial_prices stream N prices (0 + N)) as [p p2].
  destruct (load_formulations name eqb leb stream N fields reserved ([], p2) formulations) as [[m p3]|]; [|discriminate].
  injection E as <-. cbn [drawn_shares]. set (c := fun i => _).
  assert (P : forall i, (0 <= c i)%R).
  { intros i. unfold c, Rdiv. apply Rmult_le_pos; [apply HU|].
    destruct (market_size market N (market i)) as [|n]; [cbn; rewrite Rinv_0; lra|]. left. apply Rinv_0_lt_compat. apply lt_0_INR. lia. }
  split; [exact P|]. unfold market_total. fold (market_size market N t).
  set (l := filter (fun i => Nat.eqb (market i) t) (seq 0 N)).
  destruct l as [|i l'] eqn:El; [cbn; lra|].
  assert (L : market_size market N t = length (i :: l')) by (unfold market_size; fold l; now rewrite El).
  assert (Q : (0 < INR (market_size market N t))%R) by (rewrite L; apply lt_0_INR; cbn; lia).
  destruct (total_bound (i :: l') c (/ INR (market_size market N t))) as [T1 T2].
  { intros j Hj. rewrite <- El in Hj. unfold l in Hj. apply filter_In in Hj. destruct Hj as [_ Hj]. apply Nat.eqb_eq in Hj.
    split; [apply P|]. unfold c. rewrite Hj. unfold Rdiv. rewrite <- (Rmult_1_l (/ INR (market_size market N t))) at 2.
    apply Rmult_lt_compat_r; [now apply Rinv_0_lt_compat|apply HU]. }
  split; [exact T1|]. specialize (T2 ltac:(discriminate)). rewrite <- L in T2. rewrite Rinv_r in T2 by lra. exact T2.
Qed.
Print Assumptions C137_shares.

(** Variables of agents: draws continue where those for products ended, and a field with several columns gives the fields
    with indices that product-specific demographics are built from. *)
Theorem C137_agent_variables (name : Type) (eqb leb : name -> name -> bool) reserved names :
  (forall x y, eqb x y = true <-> x = y) -> total_order leb -> NoDup names ->
  exists order, NoDup order /\ (forall x, In x order <-> In x names /\ ~ In x reserved) /\
  forall stream I fields position,
    let missing := filter (fun x => match fields x with [] => true | _ => false end) order in
    let r := load_agents name eqb leb stream I fields reserved names position in
    (forall x c, In ((x, None), c) (fst r) <-> In x order /\
       (fields x = [c] \/ fields x = [] /\ exists k, nth_error missing k = Some x /\ c = (fun i => stream (position + k * I + i)))) /\
    (forall x j c, In ((x, Some j), c) (fst r) <-> In x order /\ (1 < length (fields x))%nat /\ nth_error (fields x) j = Some c) /\
    snd r = (position + length missing * I)%nat.
Proof.
  intros EQ LE HN. exists (sorted name leb (filter (fun x => negb (mem name eqb x reserved)) names)).
  assert (ND : NoDup (sorted name leb (filter (fun x => negb (mem name eqb x reserved)) names))).
  { apply (Permutation_NoDup (Permutation_sym (sorted_perm leb _))). now apply NoDup_filter. }
  split; [exact ND|]. split.
  { intros x. split.
    - intros H. apply (Permutation_in x (sorted_perm leb _)) in H. apply filter_In in H. destruct H as [H1 H2]. apply negb_true_iff in H2.
      apply (mem_not_in eqb EQ) in H2. now split.
    - intros [H1 H2]. apply (Permutation_in x (Permutation_sym (sorted_perm leb _))). apply filter_In. split; [exact H1|].
      apply (mem_not_in eqb EQ) in H2. now apply negb_true_iff. }
  intros stream I fields position missing r.
  destruct (load_agents_spec stream I fields _ [] position ND) as [E1 E2]. split; [|split].
  - intros x c. etransitivity; [apply E2|]. unfold agent_entry. cbn [In]. unfold missing, drawn. tauto.
  - intros x j c. etransitivity; [apply E2|]. unfold agent_entry. cbn [In]. tauto.
  - exact E1.
Qed.
Print Assumptions C137_agent_variables.

Example C137_applies : (forall x y, Nat.eqb x y = true <-> x = y) /\ total_order Nat.leb /\ Forall (@NoDup nat) [[3; 1]; [1; 2]]%nat /\
  Forall2 (@Permutation nat) [[3; 1]; [1; 2]]%nat [[1; 3]; [1; 2]]%nat /\
  exists r, load_products nat Nat.eqb Nat.leb (fun i => / (2 + INR i))%R 2 (fun x => if Nat.eqb x 3 then [fun _ => 5%R] else [])
    (fun i => market_size (fun _ => 0%nat) 2 0) [0%nat] None None [[3; 1]; [1; 2]]%nat = Some r /\ next_position nat r = 8%nat.
Proof.
  split; [|split; [|split; [|split]]].
  - intros x y. apply Nat.eqb_eq.
  - repeat split.
    + intros x y. destruct (Nat.le_ge_cases x y) as [H|H]; [left|right]; now apply Nat.leb_le.
    + intros x y z H1 H2. apply Nat.leb_le in H1, H2. apply Nat.leb_le. lia.
    + intros x y H1 H2. apply Nat.leb_le in H1, H2. lia.
  - repeat constructor; cbn; lia.
  - repeat constructor.
  - eexists. split; reflexivity.
Qed.
