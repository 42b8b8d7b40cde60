(** Names of IDs do not matter: proofs. *)
From Coq Require Import Reals Lra Lia ZArith List Bool Arith Permutation Sorted FunctionalExtensionality.
From Verif Require Import Base FltModel DemandModel DemandSpec DemandProofs DemandShares SupplyModel BasicsModel BasicsSpec BasicsProofs ConstrModel ConstrSpec ConstrProofs ConstrProps BasicsProps SchedModel SchedSpec PostModel PostSpec PostProofs
  ProbModel ProbSpec ProbProofs ProbProps NamesSpec.
Import ListNotations.
Local Open Scope nat_scope.

Section Rows.
  Variables (a b : list Z).
  Hypothesis H : alike a b.

  Lemma alike_length : length a = length b. Proof. exact (proj1 H). Qed.
  Lemma alike_same n m : n < length a -> m < length a -> same a n m = same b n m.
  Proof using H.
    intros Hn Hm. unfold same. assert (K := proj2 H n m Hn Hm).
    destruct (Z.eqb_spec (nth n a 0%Z) (nth m a 0%Z)) as [E|E], (Z.eqb_spec (nth n b 0%Z) (nth m b 0%Z)) as [E'|E']; try reflexivity; tauto.
  Qed.
  Lemma alike_rows n : n < length a -> rows_of a (nth n a 0%Z) = rows_of b (nth n b 0%Z).
  Proof using H.
    intro Hn. unfold rows_of. rewrite <- alike_length. apply filter_ext_in. intros j Hj. apply in_seq in Hj.
    change (same a j n = same b j n). apply alike_same; lia.
  Qed.
End Rows.

Lemma alike_sym a b : alike a b -> alike b a.
Proof. intros [L K]. split; [symmetry; exact L|]. intros n m Hn Hm. symmetry. apply K; lia. Qed.

(** Sums over rows. *)
Lemma sum_where_ext N c c' x : (forall n, n < N -> c n = c' n) -> sum_where N c x = sum_where N c' x.
Proof. induction N as [|N IH]; intro E; cbn [sum_where]; [reflexivity|]. rewrite IH by (intros; apply E; lia). rewrite (E N) by lia. reflexivity. Qed.
Lemma sum_where_ext2 N c x x' : (forall n, n < N -> x n = x' n) -> sum_where N c x = sum_where N c x'.
Proof. induction N as [|N IH]; intro E; cbn [sum_where]; [reflexivity|]. rewrite IH by (intros; apply E; lia). rewrite (E N) by lia. reflexivity. Qed.

Section Constructed.
  Variables (ids ids' fids fids' : list Z).
  Hypothesis HI : alike ids ids'.
  Hypothesis HF : alike fids fids'.
  Hypothesis HL : length fids = length ids.
  Notation N := (length ids).

  Lemma alike_others n m : n < N -> m < N -> others ids fids n m = others ids' fids' n m.
  Proof using HI HF HL. intros Hn Hm. unfold others. rewrite (alike_same _ _ HI), (alike_same _ _ HF) by lia. reflexivity. Qed.
  Lemma alike_rivals n m : n < N -> m < N -> rivals ids fids n m = rivals ids' fids' n m.
  Proof using HI HF HL. intros Hn Hm. unfold rivals. rewrite (alike_same _ _ HI), (alike_same _ _ HF) by lia. reflexivity. Qed.
  Lemma alike_pairs_sum f : pairs_sum N ids f = pairs_sum N ids' f.
  Proof using HI.
    unfold pairs_sum. apply sum_where_ext2. intros n Hn. apply sum_where_ext. intros m Hm. rewrite (alike_same _ _ HI) by assumption. reflexivity.
  Qed.
  Lemma alike_pairs_sd d : pairs_sd N ids d = pairs_sd N ids' d.
  Proof using HI. unfold pairs_sd, pairs_mean. rewrite !alike_pairs_sum. reflexivity. Qed.
  Lemma alike_terms K X which : documented_terms N K ids X which = documented_terms N K ids' X which.
  Proof using HI.
    unfold documented_terms. assert (E : (fun l => pairs_sd N ids (difference X l)) = (fun l => pairs_sd N ids' (difference X l))).
    { apply functional_extensionality. intro l. apply alike_pairs_sd. }
    cbv zeta. f_equal. apply functional_extensionality. intro l. destruct which; try reflexivity.
    - rewrite alike_pairs_sd. reflexivity.
    - rewrite alike_pairs_sd. reflexivity.
  Qed.
  Lemma alike_documented K X which n : n < N -> documented_instruments ids fids K X which n = documented_instruments ids' fids' K X which n.
  Proof using HI HF HL.
    intro Hn. unfold documented_instruments. rewrite <- (alike_length _ _ HI). cbv zeta. rewrite alike_terms. f_equal; apply map_ext; intro f.
    - apply sum_where_ext. intros m Hm. apply alike_others; lia.
    - apply sum_where_ext. intros m Hm. apply alike_rivals; lia.
  Qed.
  Lemma alike_differentiation K X huge v interact n : n < N ->
    build_differentiation_instruments ids fids K X huge v interact n = build_differentiation_instruments ids' fids' K X huge v interact n.
  Proof using HI HF HL.
    intro Hn. assert (L := alike_length _ _ HI). assert (L2 := alike_length _ _ HF).
    destruct v, interact.
    - rewrite !C36_local_products by lia. rewrite alike_documented by exact Hn. reflexivity.
    - rewrite !C36_documented_partial by (try lia; right; reflexivity). apply alike_documented, Hn.
    - rewrite !C36_documented_partial by (try lia; left; reflexivity). apply alike_documented, Hn.
    - rewrite !C36_documented_partial by (try lia; left; reflexivity). apply alike_documented, Hn.
  Qed.
  Lemma alike_blp ms ps ms' ps' x n : is_argsort ids ms -> is_argsort (interact_ids ids fids) ps -> is_argsort ids' ms' -> is_argsort (interact_ids ids' fids') ps' -> n < N ->
    blp_other ids fids ps x n = blp_other ids' fids' ps' x n /\ blp_rival ids fids ms ps x n = blp_rival ids' fids' ms' ps' x n.
  Proof using HI HF HL.
    intros M P M' P' Hn. assert (L := alike_length _ _ HI). assert (L2 := alike_length _ _ HF).
    destruct (C35_instruments ids fids ms ps x n ltac:(lia) M P Hn) as (A & B & _).
    destruct (C35_instruments ids' fids' ms' ps' x n ltac:(lia) M' P' ltac:(lia)) as (A' & B' & _).
    rewrite A, B, A', B', <- L. split; apply sum_where_ext; intros m Hm; [apply alike_others|apply alike_rivals]; lia.
  Qed.
  (** Rules of conduct in terms of firms' names follow them. *)
  Definition kappa_alike (kappa kappa' : kappa_specification) : Prop :=
    match kappa, kappa' with
    | Callable k, Callable k' => forall n m, n < N -> m < N -> k (nth n fids 0%Z) (nth m fids 0%Z) = k' (nth n fids' 0%Z) (nth m fids' 0%Z)
    | Default, Default | Monopoly, Monopoly | Single, Single => True
    | _, _ => False
    end.
  Lemma alike_ownership kappa kappa' n c : kappa_alike kappa kappa' -> n < N -> build_ownership ids fids kappa n c = build_ownership ids' fids' kappa' n c.
  Proof using HI HF HL.
    intros HK Hn. assert (L := alike_length _ _ HI). rewrite !ownership_spec by lia. cbv zeta. rewrite <- (alike_rows _ _ HI n Hn).
    set (rows := rows_of ids (nth n ids 0%Z)). destruct (Nat.ltb_spec c (length rows)) as [Hc|Hc]; [|reflexivity]. f_equal.
    assert (Hm : nth c rows 0 < N). { assert (I : In (nth c rows 0) rows) by (apply nth_In; exact Hc). apply rows_of_in in I. exact (proj1 I). }
    destruct kappa, kappa'; try contradiction; try reflexivity.
    - assert (E := alike_same _ _ HF n (nth c rows 0) ltac:(lia) ltac:(lia)). unfold kappa_value. rewrite E. reflexivity.
    - exact (HK n (nth c rows 0) Hn Hm).
  Qed.
End Constructed.

(** Statistics of groups. *)
Section Groups.
  Variables (ids ids' : list Z) (p p' : list nat).
  Hypothesis HI : alike ids ids'.
  Hypothesis P : is_argsort ids p.
  Hypothesis P' : is_argsort ids' p'.
  Lemma alike_group_sum x j : j < length ids -> group_expand ids p (group_sum ids p x) j = group_expand ids' p' (group_sum ids' p' x) j.
  Proof using HI P P'.
    intro Hj. destruct (C22_group_statistics ids p x P) as (_ & _ & E & _). destruct (C22_group_statistics ids' p' x P') as (_ & _ & E' & _). rewrite E, E'.
    destruct (C22_expand ids p (fun t => sum_rows x (rows_of ids t)) j P Hj) as (_ & _ & A).
    destruct (C22_expand ids' p' (fun t => sum_rows x (rows_of ids' t)) j P') as (_ & _ & A'); [rewrite <- (alike_length _ _ HI); exact Hj|].
    rewrite A, A', (alike_rows _ _ HI j Hj). reflexivity.
  Qed.
  Lemma alike_group_mean x j : j < length ids -> group_expand ids p (group_mean ids p x) j = group_expand ids' p' (group_mean ids' p' x) j.
  Proof using HI P P'.
    intro Hj. destruct (C22_group_statistics ids p x P) as (_ & _ & _ & _ & E). destruct (C22_group_statistics ids' p' x P') as (_ & _ & _ & _ & E'). rewrite E, E'.
    destruct (C22_expand ids p (fun t => sum_rows x (rows_of ids t) / INR (length (rows_of ids t)))%R j P Hj) as (_ & _ & A).
    destruct (C22_expand ids' p' (fun t => sum_rows x (rows_of ids' t) / INR (length (rows_of ids' t)))%R j P') as (_ & _ & A'); [rewrite <- (alike_length _ _ HI); exact Hj|].
    rewrite A, A', (alike_rows _ _ HI j Hj). reflexivity.
  Qed.
  Lemma alike_group_count : group_count ids p = group_count ids' p'.
  Proof using HI P P'.
    destruct (C22_group_statistics ids p (fun _ => 0%R) P) as ([S D] & E & _). destruct (C22_group_statistics ids' p' (fun _ => 0%R) P') as ([S' D'] & E' & _). rewrite E, E'.
    set (u := group_unique ids p) in *. set (u' := group_unique ids' p') in *.
    assert (ND : forall l, StronglySorted Z.lt l -> NoDup l).
    { induction 1 as [|y l HS IH HF]; constructor; [|exact IH]. intro I. rewrite Forall_forall in HF. specialize (HF y I). lia. }
    assert (G : forall (v v' w w' : list Z), alike w w' -> StronglySorted Z.lt v -> (forall t, In t v <-> In t w) -> (forall t, In t v' <-> In t w') -> length v <= length v').
    { intros v v' w w' A SS Dv Dv'.
      set (f := fun t => match find (fun j => Z.eqb (nth j w 0%Z) t) (seq 0 (length w)) with Some j => nth j w' 0%Z | None => 0%Z end).
      assert (F : forall t, In t v -> exists j, j < length w /\ nth j w 0%Z = t /\ f t = nth j w' 0%Z).
      { intros t Ht. unfold f. destruct (find (fun j => Z.eqb (nth j w 0%Z) t) (seq 0 (length w))) as [j|] eqn:Ef.
        - apply find_some in Ef as [Hin He]. apply in_seq in Hin. apply Z.eqb_eq in He. exists j. split; [lia|]. split; [exact He|reflexivity].
        - exfalso. apply Dv in Ht. apply In_nth with (d := 0%Z) in Ht as (j & Hj & Hn). assert (Q := find_none _ _ Ef j ltac:(apply in_seq; lia)). apply Z.eqb_neq in Q. contradiction. }
      rewrite <- (map_length f v). apply NoDup_incl_length.
      - assert (NV := ND v SS). clear SS Dv. revert F. induction NV as [|t l Hni NV IH]; intro F; cbn [map]; constructor.
        + intro I. apply in_map_iff in I as (t2 & E2 & I2). destruct (F t (or_introl eq_refl)) as (j & Hj & E1 & Ef). destruct (F t2 (or_intror I2)) as (j2 & Hj2 & E3 & Ef2).
          apply Hni. assert (nth j w 0%Z = nth j2 w 0%Z). { apply (proj2 A); [exact Hj|exact Hj2|]. rewrite <- Ef, <- Ef2. symmetry. exact E2. }
          rewrite E1, E3 in H. rewrite H. exact I2.
        + apply IH. intros t2 I2. apply F. right. exact I2.
      - intros s I. apply in_map_iff in I as (t & <- & I). destruct (F t I) as (j & Hj & _ & Ef). rewrite Ef. apply Dv'. apply nth_In. rewrite <- (proj1 A). exact Hj. }
    apply Nat.le_antisymm; [exact (G u u' ids ids' HI S D D')|exact (G u' u ids' ids (alike_sym _ _ HI) S' D' D)].
  Qed.
End Groups.

(** Names of nests. *)
Section Nests.
  Variables (J H H' : nat) (grp grp' : nat -> nat) (r r' : nat -> R) (inc : nat -> bool) (out : bool) (V : nat -> R).
  Hypothesis Hg : forall j, j < J -> grp j < H.
  Hypothesis Hg' : forall j, j < J -> grp' j < H'.
  Hypothesis HA : alike_below J grp grp'.
  Hypothesis HR : forall j, j < J -> r (grp j) = r' (grp' j).

  Lemma alike_eqb k j : k < J -> j < J -> Nat.eqb (grp k) (grp j) = Nat.eqb (grp' k) (grp' j).
  Proof using HA. intros Hk Hj. assert (K := HA k j Hk Hj). destruct (Nat.eqb_spec (grp k) (grp j)) as [e|e], (Nat.eqb_spec (grp' k) (grp' j)) as [e'|e']; try reflexivity; exfalso; [exact (e' (proj1 K e))|exact (e (proj2 K e'))]. Qed.
  Lemma alike_inclusive j : j < J -> inclusive J grp r inc V (grp j) = inclusive J grp' r' inc V (grp' j).
  Proof using HA HR. intro Hj. unfold inclusive. apply sumn_ext. intros k Hk. rewrite (alike_eqb k j Hk Hj), (HR j Hj). reflexivity. Qed.
  Lemma alike_weight j : j < J -> group_weight J grp r inc V (grp j) = group_weight J grp' r' inc V (grp' j).
  Proof using HA HR.
    intro Hj. unfold group_weight. rewrite (alike_inclusive j Hj), (HR j Hj).
    assert (E : existsb (fun k => inc k && Nat.eqb (grp k) (grp j)) (seq 0 J) = existsb (fun k => inc k && Nat.eqb (grp' k) (grp' j)) (seq 0 J)).
    { apply eq_true_iff_eq. rewrite !existsb_exists. split; intros (k & Ik & Ek); exists k; (split; [exact Ik|]); apply in_seq in Ik.
      - rewrite <- (alike_eqb k j) by lia. exact Ek.
      - rewrite (alike_eqb k j) by lia. exact Ek. }
    rewrite E. reflexivity.
  Qed.
  Lemma alike_within j : j < J -> within_group J grp r inc V j = within_group J grp' r' inc V j.
  Proof using HA HR. intro Hj. unfold within_group. rewrite (alike_inclusive j Hj), (HR j Hj). reflexivity. Qed.
  Lemma weights_by_product G (g : nat -> nat) (q : nat -> R) : (forall j, j < J -> g j < G) ->
    sumn G (group_weight J g q inc V) = sumn J (fun j => (within_group J g q inc V j * group_weight J g q inc V (g j))%R).
  Proof using.
    intro Hb. rewrite (sumn_by_group J G g _ Hb). apply sumn_ext. intros h Hh. symmetry.
    transitivity (sumn J (fun j => (if Nat.eqb (g j) h then within_group J g q inc V j else 0) * group_weight J g q inc V h)%R).
    { apply sumn_ext. intros j _. destruct (Nat.eqb_spec (g j) h) as [e|]; [rewrite e; reflexivity|ring]. }
    rewrite sumn_scal_r, within_group_total. destruct (existsb _ _) eqn:E; [ring|].
    assert (W0 : group_weight J g q inc V h = 0%R) by (unfold group_weight; rewrite E; reflexivity). rewrite W0. ring.
  Qed.
  Lemma alike_nested j : j < J -> nested J H grp r inc out V j = nested J H' grp' r' inc out V j.
  Proof using Hg Hg' HA HR.
    intro Hj. unfold nested, group_share. rewrite (alike_within j Hj), (alike_weight j Hj). do 3 f_equal.
    rewrite (weights_by_product H grp r Hg), (weights_by_product H' grp' r' Hg'). apply sumn_ext. intros k Hk. rewrite (alike_within k Hk), (alike_weight k Hk). reflexivity.
  Qed.
End Nests.

Lemma logit_ext J inc inc' out V V' j : j < J -> (forall k, k < J -> inc k = inc' k) -> (forall k, k < J -> V k = V' k) -> logit J inc out V j = logit J inc' out V' j.
Proof.
  intros Hj I U. unfold logit. rewrite (I j Hj), (U j Hj), (sumn_ext J (fun k => if inc k then exp (V k) else 0%R) (fun k => if inc' k then exp (V' k) else 0%R)); [reflexivity|].
  intros k Hk. rewrite (I k Hk), (U k Hk). reflexivity.
Qed.
Lemma nested_ext J H g r inc inc' out V V' j : j < J -> (forall k, k < J -> inc k = inc' k) -> (forall k, k < J -> V k = V' k) -> nested J H g r inc out V j = nested J H g r inc' out V' j.
Proof.
  intros Hj I U.
  assert (A : forall h, inclusive J g r inc V h = inclusive J g r inc' V' h) by (intro h; apply sumn_ext; intros k Hk; rewrite (I k Hk), (U k Hk); reflexivity).
  assert (B : forall h, group_weight J g r inc V h = group_weight J g r inc' V' h).
  { intro h. unfold group_weight. rewrite A. assert (E : existsb (fun k => inc k && Nat.eqb (g k) h) (seq 0 J) = existsb (fun k => inc' k && Nat.eqb (g k) h) (seq 0 J)).
    { apply eq_true_iff_eq. rewrite !existsb_exists. split; intros (k & Ik & Ek); exists k; (split; [exact Ik|]); apply in_seq in Ik; [rewrite <- I by lia|rewrite I by lia]; exact Ek. }
    rewrite E. reflexivity. }
  unfold nested, group_share, within_group. rewrite (I j Hj), (U j Hj), A, B, (sumn_ext H (group_weight J g r inc V) (group_weight J g r inc' V')) by (intros; apply B). reflexivity.
Qed.

(** The same products and agents, where markets and nests have other names. *)
Record renamed (e : economy) (p : population) (e' : economy) (p' : population) : Prop := {
  re_products : alike (e_ids e) (e_ids e');
  re_agents : alike_across (e_ids e) (p_ids p) (e_ids e') (p_ids p');
  re_nested : e_H e = O <-> e_H e' = O;
  re_nests : e_H e <> O -> alike_below (length (e_ids e)) (e_nest e) (e_nest e');
  re_rho : e_H e <> O -> forall i, i < length (e_ids e) -> nest_rho (e_rho_size e) (e_rho e) (e_nest e i) = nest_rho (e_rho_size e') (e_rho e') (e_nest e' i);
  re_eps : e_eps e = e_eps e';
  re_K1 : e_K1 e = e_K1 e';
  re_X1 : forall k i x, ev (e_X1 e k) i x = ev (e_X1 e' k) i x;
  re_beta : forall k, e_beta e k = e_beta e' k;
  re_K2 : e_K2 e = e_K2 e';
  re_X2 : forall k i x, ev (e_X2 e k) i x = ev (e_X2 e' k) i x;
  re_prices : forall i, e_prices e i = e_prices e' i;
  re_delta : forall i, e_delta e i = e_delta e' i;
  re_weights : forall n, p_weights p n = p_weights p' n;
  re_coef : forall n k j, p_coef p n k j = p_coef p' n k j;
  re_availability : p_availability p = p_availability p'
}.

Lemma rank_alike a b i : alike a b -> i < length a -> rank a i = rank b i.
Proof.
  intros H Hi. unfold rank.
  assert (G : forall m, m <= i -> count_occ Z.eq_dec (firstn m a) (nth i a 0%Z) = count_occ Z.eq_dec (firstn m b) (nth i b 0%Z)).
  { induction m as [|m IH]; intro Hm; [reflexivity|].
    assert (Sn : forall (l : list Z), m < length l -> firstn (S m) l = firstn m l ++ [nth m l 0%Z]).
    { clear. intro l. revert m. induction l as [|y l IH]; intros m L; [cbn in L; lia|]. destruct m; [reflexivity|]. cbn [firstn nth app]. f_equal. apply IH. cbn in L. lia. }
    rewrite (Sn a) by lia. rewrite (Sn b) by (rewrite <- (proj1 H); lia). rewrite !count_occ_app, IH by lia. f_equal. cbn [count_occ].
    assert (K := proj2 H m i ltac:(lia) Hi).
    destruct (Z.eq_dec (nth m a 0%Z) (nth i a 0%Z)), (Z.eq_dec (nth m b 0%Z) (nth i b 0%Z)); try reflexivity; tauto. }
  apply G. lia.
Qed.

Section Renamed.
  Variables (e : economy) (p : population) (e' : economy) (p' : population).
  Hypothesis RE : renamed e p e' p'.
  Hypothesis C : consistent e p.
  Hypothesis C' : consistent e' p'.
  Notation N := (length (e_ids e)).

  Lemma renamed_agents i : i < N -> rows_of (p_ids p) (nth i (e_ids e) 0%Z) = rows_of (p_ids p') (nth i (e_ids e') 0%Z).
  Proof using RE.
    intro Hi. destruct (re_agents _ _ _ _ RE) as (L & L' & K). unfold rows_of. rewrite <- L'. apply filter_ext_in. intros m Hm. apply in_seq in Hm.
    specialize (K i m Hi ltac:(lia)).
    destruct (Z.eqb_spec (nth m (p_ids p) 0%Z) (nth i (e_ids e) 0%Z)) as [E|E], (Z.eqb_spec (nth m (p_ids p') 0%Z) (nth i (e_ids e') 0%Z)) as [E'|E']; try reflexivity; exfalso.
    - apply E'. symmetry. apply K. symmetry. exact E.
    - apply E. symmetry. apply K. symmetry. exact E'.
  Qed.
  Lemma renamed_utility x d n i : i < N -> row_utility e p x d n i = row_utility e' p' x d n i.
  Proof using RE.
    intro Hi. unfold row_utility, utility_at, unobserved. rewrite (rank_alike _ _ i (re_products _ _ _ _ RE) Hi), <- (re_eps _ _ _ _ RE), <- (re_K1 _ _ _ _ RE), <- (re_K2 _ _ _ _ RE), (re_delta _ _ _ _ RE), (re_prices _ _ _ _ RE).
    f_equal. f_equal.
    - destruct d; [reflexivity|]. f_equal; [f_equal|]; apply sumn_ext; intros k _; rewrite (re_X1 _ _ _ _ RE), (re_beta _ _ _ _ RE); reflexivity.
    - apply sumn_ext. intros k _. rewrite (re_X2 _ _ _ _ RE), (re_coef _ _ _ _ RE). reflexivity.
  Qed.
  Lemma renamed_available n i : i < N -> row_available e p n i = row_available e' p' n i.
  Proof using RE. intro Hi. unfold row_available. rewrite (re_availability _ _ _ _ RE), (rank_alike _ _ i (re_products _ _ _ _ RE) Hi). reflexivity. Qed.

  Lemma renamed_probability x d n i : i < N -> row_probability e p x d n i = row_probability e' p' x d n i.
  Proof using RE C C'.
    intro Hi. unfold row_probability, choice_probability. rewrite <- (alike_length _ _ (re_products _ _ _ _ RE)).
    assert (I : forall l, l < N -> (Z.eqb (nth l (e_ids e) 0%Z) (nth i (e_ids e) 0%Z) && row_available e p n l)%bool = (Z.eqb (nth l (e_ids e') 0%Z) (nth i (e_ids e') 0%Z) && row_available e' p' n l)%bool).
    { intros l Hl. rewrite renamed_available by exact Hl. f_equal. exact (alike_same _ _ (re_products _ _ _ _ RE) l i Hl Hi). }
    assert (U : forall l, l < N -> row_utility e p x d n l = row_utility e' p' x d n l) by (intros l Hl; apply renamed_utility, Hl).
    assert (EQ : Nat.eqb (e_H e) 0 = Nat.eqb (e_H e') 0).
    { destruct (re_nested _ _ _ _ RE) as [A B]. destruct (Nat.eqb_spec (e_H e) 0) as [h|h], (Nat.eqb_spec (e_H e') 0) as [h'|h']; try reflexivity; exfalso; auto. }
    rewrite EQ. destruct (Nat.eqb_spec (e_H e') 0) as [h|h].
    - apply logit_ext; [exact Hi|exact I|exact U].
    - assert (h0 : e_H e <> 0) by (intro Z0; apply h, (re_nested _ _ _ _ RE), Z0).
      rewrite (nested_ext N (e_H e) _ _ _ _ true _ _ i Hi I U).
      apply (alike_nested N (e_H e) (e_H e')); [intros; apply (co_nests _ _ C h0); assumption| |apply (re_nests _ _ _ _ RE h0)|apply (re_rho _ _ _ _ RE h0)|exact Hi].
      intros j Hj. apply (co_nests _ _ C' h). rewrite <- (alike_length _ _ (re_products _ _ _ _ RE)). exact Hj.
  Qed.

  Variables (u u' order order' : list Z) (x d : option (nat -> R)).
  Hypothesis HU : sorted_distinct (e_ids e) u.
  Hypothesis HU' : sorted_distinct (e_ids e') u'.
  Hypothesis HO : Permutation order u.
  Hypothesis HO' : Permutation order' u'.
  Hypothesis HG : length (e_ids e) <> length u \/ StronglySorted Z.le (e_ids e).
  Hypothesis HG' : length (e_ids e') <> length u' \/ StronglySorted Z.le (e_ids e').
  Hypothesis HN : e_ids e <> [].
  Let LEN : length (e_ids e) = length (e_ids e') := proj1 (re_products _ _ _ _ RE).

  Lemma renamed_size i : i < N -> size_of (p_ids p) (nth i (e_ids e) 0%Z) = size_of (p_ids p') (nth i (e_ids e') 0%Z).
  Proof using RE. intro Hi. rewrite <- !rows_size, (renamed_agents i Hi). reflexivity. Qed.
  Lemma renamed_most n : most n (map (size_of (p_ids p)) u) -> most n (map (size_of (p_ids p')) u').
  Proof using RE HU HU' LEN HG HG'.
    intros [A B]. split.
    - intros s I. apply in_map_iff in I as (t & <- & I). apply (proj2 HU') in I. apply In_nth with (d := 0%Z) in I as (i & Hi & <-).
      rewrite <- renamed_size by lia. apply A. apply in_map. apply (proj2 HU). apply nth_In. lia.
    - apply in_map_iff in B as (t & <- & I). apply (proj2 HU) in I. apply In_nth with (d := 0%Z) in I as (i & Hi & <-).
      rewrite renamed_size by exact Hi. apply in_map. apply (proj2 HU'). apply nth_In. lia.
  Qed.
  Lemma most_unique n m l : most n l -> most m l -> n = m.
  Proof using. intros [A B] [A' B']. exact (Nat.le_antisymm _ _ (A' n B) (A m B')). Qed.
  Lemma prices_given i n : i < N -> row_probability e p (match x with Some x => x | None => e_prices e end) d n i
    = row_probability e' p' (match x with Some x => x | None => e_prices e' end) d n i.
  Proof using RE C C'.
    intro Hi. rewrite renamed_probability by exact Hi. assert (E : e_prices e = e_prices e') by (apply functional_extensionality; apply (re_prices _ _ _ _ RE)). rewrite E. reflexivity.
  Qed.

  Lemma renamed_probabilities : exists r r',
    compute_probabilities e p u order (option_map (vector N) x) (option_map (vector N) d) = Some r /\
    compute_probabilities e' p' u' order' (option_map (vector N) x) (option_map (vector N) d) = Some r' /\
    st_rows r = st_rows r' /\ st_columns r = st_columns r' /\ forall i k, i < N -> st_cell r i k = st_cell r' i k.
  Proof using RE C C' HU HU' HO HO' HG HG' HN LEN.
    destruct (C115_probabilities e p u order x d C HU HO HG HN) as (r & E & R1 & R2 & R3).
    assert (HN' : e_ids e' <> []). { intro E0. apply HN. apply length_zero_iff_nil. rewrite LEN, E0. reflexivity. }
    destruct (C115_probabilities e' p' u' order' x d C' HU' HO' HG' HN') as (r' & E' & R1' & R2' & R3').
    exists r, r'. rewrite <- LEN in E'. split; [exact E|]. split; [exact E'|]. split; [congruence|].
    split; [exact (most_unique _ _ _ (renamed_most _ R2) R2')|].
    intros i k Hi. rewrite R3 by exact Hi. rewrite R3' by lia. rewrite renamed_size, renamed_agents, prices_given by exact Hi. reflexivity.
  Qed.
  Lemma renamed_shares : exists r r',
    compute_shares e p u order (option_map (vector N) x) (option_map (vector N) d) = Some r /\
    compute_shares e' p' u' order' (option_map (vector N) x) (option_map (vector N) d) = Some r' /\
    st_rows r = st_rows r' /\ st_columns r = st_columns r' /\ forall i, i < N -> st_cell r i 0 = st_cell r' i 0.
  Proof using RE C C' HU HU' HO HO' HG HG' HN LEN.
    destruct (C115_shares e p u order x d C HU HO HG HN) as (r & E & R1 & R2 & R3).
    assert (HN' : e_ids e' <> []). { intro E0. apply HN. apply length_zero_iff_nil. rewrite LEN, E0. reflexivity. }
    destruct (C115_shares e' p' u' order' x d C' HU' HO' HG' HN') as (r' & E' & R1' & R2' & R3').
    exists r, r'. rewrite <- LEN in E'. split; [exact E|]. split; [exact E'|]. split; [congruence|]. split; [congruence|].
    intros i Hi. rewrite R3 by exact Hi. rewrite R3' by lia. rewrite renamed_agents by exact Hi. f_equal. unfold total_over.
    induction (rows_of (p_ids p') (nth i (e_ids e') 0%Z)) as [|n l IH]; [reflexivity|]. cbn [fold_right]. rewrite IH, prices_given, (re_weights _ _ _ _ RE) by exact Hi. reflexivity.
  Qed.

  Lemma renamed_one_market i : i < N ->
    let given := option_map (fun v : nat -> R => vector (size_of (e_ids e) (nth i (e_ids e) 0%Z)) (fun q => v (nth q (rows_of (e_ids e) (nth i (e_ids e) 0%Z)) 0))) in
    exists r r',
      compute_probabilities e p [nth i (e_ids e) 0%Z] [nth i (e_ids e) 0%Z] (given x) (given d) = Some r /\
      compute_probabilities e' p' [nth i (e_ids e') 0%Z] [nth i (e_ids e') 0%Z] (given x) (given d) = Some r' /\
      st_rows r = st_rows r' /\ st_columns r = st_columns r' /\ forall q k, q < st_rows r -> k < st_columns r -> st_cell r q k = st_cell r' q k.
  Proof using RE C C' LEN.
    intros Hi given. destruct (C115_one_market e p (nth i (e_ids e) 0%Z) x d C (nth_In _ _ Hi)) as (r & E & R1 & R2 & R3).
    assert (Hi' : i < length (e_ids e')) by (rewrite <- LEN; exact Hi).
    destruct (C115_one_market e' p' (nth i (e_ids e') 0%Z) x d C' (nth_In _ _ Hi')) as (r' & E' & R1' & R2' & R3').
    rewrite <- !rows_size, <- (alike_rows _ _ (re_products _ _ _ _ RE) i Hi) in E', R1', R3'. rewrite <- (renamed_size i Hi) in R2', R3'. rewrite <- (renamed_agents i Hi) in R3'.
    exists r, r'. unfold given. split; [exact E|]. rewrite <- rows_size. split; [exact E'|]. split; [rewrite R1, R1'; symmetry; apply rows_size|]. split; [rewrite R2, R2'; reflexivity|].
    intros q k Hq Hk. rewrite R1 in Hq. rewrite R2 in Hk. rewrite R3 by assumption.
    rewrite R3' by (rewrite ?rows_size; assumption). f_equal. apply prices_given.
    assert (I : In (nth q (rows_of (e_ids e) (nth i (e_ids e) 0%Z)) 0) (rows_of (e_ids e) (nth i (e_ids e) 0%Z))) by (apply nth_In; rewrite rows_size; exact Hq).
    apply rows_of_in in I. exact (proj1 I).
  Qed.
End Renamed.
