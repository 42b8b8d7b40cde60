(** Lemmas about parameters. *)
From Coq Require Import Reals Lra Lia List Bool Arith.
From Verif Require Import FltModel ParamsModel ParamsSpec.
Import ListNotations.

(* ---------- Floating point comparisons ---------- *)

Lemma feqb_true x y : feqb x y = true <-> x = y /\ fnan x = false.
Proof.
  destruct x, y; cbn; unfold reqb; try destruct (Req_EM_T _ _) as [->|N];
    (split; [intro E; split; congruence|intros [E F]; try reflexivity; congruence]).
Qed.

Lemma feqb_false x y : fnan x = false -> (feqb x y = false <-> x <> y).
Proof.
  intro N. split.
  - intros H ->. assert (E : feqb y y = true) by (apply feqb_true; auto). congruence.
  - intro H. destruct (feqb x y) eqn:E; [|reflexivity]. apply feqb_true in E. tauto.
Qed.

Lemma fleb_refl x : fnan x = false -> fleb x x = true.
Proof. intro N. unfold fleb. assert (E : feqb x x = true) by (apply feqb_true; auto). rewrite E. apply orb_true_r. Qed.

Lemma not_lt_le x y : fnan x = false -> fnan y = false -> fltb x y = false -> fleb y x = true.
Proof.
  destruct x, y; cbn; try discriminate; try reflexivity. intros _ _. unfold fleb, fltb, rltb. cbn. unfold reqb.
  destruct (Rlt_dec r r0); [discriminate|]. intros _. destruct (Rlt_dec r0 r); [reflexivity|].
  destruct (Req_EM_T r0 r); [reflexivity|]. exfalso. lra.
Qed.

Lemma fleb_antisym x y : fleb x y = true -> fleb y x = true -> x = y.
Proof.
  destruct x, y; unfold fleb, fltb, rltb; cbn; unfold reqb; try discriminate; try reflexivity.
  destruct (Rlt_dec r r0), (Rlt_dec r0 r), (Req_EM_T r r0), (Req_EM_T r0 r); cbn; try discriminate; intros; f_equal; try lra.
Qed.

Lemma fleb_nan x y : fleb x y = true -> fnan x = false /\ fnan y = false.
Proof. destruct x, y; cbn; auto; discriminate. Qed.

(* ---------- Lists of locations ---------- *)

Lemma ndindex_in r c i j : In (i, j) (ndindex r c) <-> i < r /\ j < c.
Proof. unfold ndindex. rewrite in_prod_iff, !in_seq. lia. Qed.

Lemma tril_in n i j : In (i, j) (tril_indices n) <-> i < n /\ j <= i.
Proof.
  unfold tril_indices. rewrite in_flat_map. split.
  - intros [x [Hx H]]. apply in_map_iff in H. destruct H as [y [E Hy]]. injection E as -> ->. apply in_seq in Hx, Hy. lia.
  - intros H. exists i. split; [apply in_seq; lia|]. apply in_map_iff. exists j. split; [reflexivity|apply in_seq; lia].
Qed.

Lemma nodup_flat_map {A B} (f : A -> list B) l : NoDup l -> (forall x, In x l -> NoDup (f x)) ->
  (forall x y b, In x l -> In y l -> In b (f x) -> In b (f y) -> x = y) -> NoDup (flat_map f l).
Proof.
  intros ND Hf Hd. induction l as [|x l IH]; [constructor|]. inversion ND as [|? ? Hx ND']; subst. cbn.
  assert (G : NoDup (flat_map f l)).
  { apply IH; [assumption| |]; intros; [apply Hf; right; assumption|]. apply (Hd x0 y b); try right; assumption. }
  assert (D : forall b, In b (f x) -> ~ In b (flat_map f l)).
  { intros b Hb H. apply in_flat_map in H. destruct H as [y [Hy Hb']].
    assert (x = y) by (apply (Hd x y b); [left; reflexivity|right; assumption|assumption|assumption]). subst. contradiction. }
  revert D. assert (N := Hf x (or_introl eq_refl)). induction (f x) as [|b m IHm]; intro D; [exact G|].
  inversion N as [|? ? Hb N']; subst. cbn. constructor.
  - rewrite in_app_iff. intros [H|H]; [contradiction|]. exact (D b (or_introl eq_refl) H).
  - apply IHm; [assumption|]. intros b' Hb'. apply D. right. assumption.
Qed.

Lemma nodup_map_inj {A B} (f : A -> B) l : (forall x y, f x = f y -> x = y) -> NoDup l -> NoDup (map f l).
Proof.
  intros Hf ND. induction l as [|x l IH]; [constructor|]. inversion ND as [|? ? Hx ND']; subst. cbn. constructor; [|auto].
  intro H. apply in_map_iff in H. destruct H as [y [E Hy]]. apply Hf in E. subst. contradiction.
Qed.

Lemma ndindex_nodup r c : NoDup (ndindex r c).
Proof.
  unfold ndindex.
  assert (E : forall l m : list nat, list_prod l m = flat_map (fun i => map (pair i) m) l).
  { intros l m. induction l as [|x l IH]; [reflexivity|]. cbn. rewrite IH. reflexivity. }
  rewrite E. apply nodup_flat_map; [apply seq_NoDup| |].
  - intros x _. apply nodup_map_inj; [intros a b H; injection H; auto|apply seq_NoDup].
  - intros x y b _ _ Hx Hy. apply in_map_iff in Hx. apply in_map_iff in Hy. destruct Hx as [? [<- _]], Hy as [? [H _]].
    injection H; auto.
Qed.

Lemma tril_nodup n : NoDup (tril_indices n).
Proof.
  unfold tril_indices. apply nodup_flat_map; [apply seq_NoDup| |].
  - intros x _. apply nodup_map_inj; [intros a b H; injection H; auto|apply seq_NoDup].
  - intros x y b _ _ Hx Hy. apply in_map_iff in Hx. apply in_map_iff in Hy. destruct Hx as [? [<- _]], Hy as [? [H _]].
    injection H; auto.
Qed.

Definition all_parameters (mat : kind -> matrix) : list parameter :=
  flat_map (fun k => map (pair k) (locations mat k)) kinds.

Lemma kinds_all k : In k kinds.
Proof. destruct k; cbn; tauto. Qed.
Lemma kinds_nodup : NoDup kinds.
Proof.
  unfold kinds. repeat constructor; cbn; intro H;
    repeat match goal with X : _ \/ _ |- _ => destruct X as [X|X] end; try discriminate; contradiction.
Qed.

Lemma locations_nodup m k : NoDup (locations m k).
Proof. destruct k; cbn [locations]; auto using ndindex_nodup, tril_nodup. Qed.

Lemma all_nodup m : NoDup (all_parameters m).
Proof.
  unfold all_parameters. apply nodup_flat_map; [exact kinds_nodup| |].
  - intros k _. apply nodup_map_inj; [intros a b H; injection H; auto|apply locations_nodup].
  - intros x y b _ _ Hx Hy. apply in_map_iff in Hx. apply in_map_iff in Hy. destruct Hx as [? [<- _]], Hy as [? [H _]].
    injection H; auto.
Qed.

Lemma all_in m k i j : ncols (m Sigma) = nrows (m Sigma) ->
  (In (k, (i, j)) (all_parameters m) <-> is_entry m k i j).
Proof.
  intro Sq. unfold all_parameters, is_entry. rewrite in_flat_map. split.
  - intros [k' [_ H]]. apply in_map_iff in H. destruct H as [ij [E H]]. injection E as -> ->.
    destruct k; cbn [locations] in H; try (apply ndindex_in in H; repeat split; [tauto|tauto|discriminate]).
    apply tril_in in H. rewrite Sq. lia.
  - intros [Hi [Hj Hs]]. exists k. split; [apply kinds_all|]. apply in_map. destruct k; cbn [locations];
      try (apply ndindex_in; tauto). apply tril_in. split; [assumption|]. auto.
Qed.

(* ---------- store ---------- *)

Definition elim_p (elim : kind -> nat -> nat -> bool) (p : parameter) : bool := let '(k, (i, j)) := p in elim k i j.

Lemma store_filter lower upper elim l : forall f u e,
  fold_left (store_one lower upper elim) l (f, u, e) =
  (f ++ filter (fun p => negb (elim_p elim p) && has_value lower upper p) l,
   u ++ filter (fun p => negb (elim_p elim p) && negb (has_value lower upper p)) l,
   e ++ filter (elim_p elim) l).
Proof.
  induction l as [|p l IH]; intros f u e; cbn [fold_left filter]; [rewrite !app_nil_r; reflexivity|].
  destruct p as [k [i j]]. cbn [store_one elim_p]. destruct (elim k i j); cbn [negb andb].
  - rewrite IH, <- app_assoc. reflexivity.
  - destruct (has_value lower upper (k, (i, j))); cbn [negb]; rewrite IH, <- app_assoc; reflexivity.
Qed.

Lemma store_kinds lower upper elim m : forall ks s,
  fold_left (store lower upper elim m) ks s
  = fold_left (store_one lower upper elim) (flat_map (fun k => map (pair k) (locations m k)) ks) s.
Proof.
  induction ks as [|k ks IH]; intro s; [reflexivity|]. cbn [fold_left flat_map]. rewrite fold_left_app, IH. reflexivity.
Qed.

(* ---------- What initialisation guarantees ---------- *)

Record initialized (bounded : bool) (given : kind -> bool) (ps : parameters) (lo up : kind -> nat -> nat -> flt) : Prop := {
  ini_fixed : fixed ps = filter (fun p => negb (elim_p (eliminated_index ps) p) && has_value lo up p) (all_parameters (mat ps));
  ini_unfixed : unfixed ps = filter (fun p => negb (elim_p (eliminated_index ps) p) && negb (has_value lo up p)) (all_parameters (mat ps));
  ini_eliminated : eliminated ps = filter (elim_p (eliminated_index ps)) (all_parameters (mat ps));
  ini_lower : lower ps = default_lower bounded given (mat ps) (unfixed ps) lo;
  ini_upper : upper ps = default_upper bounded given (mat ps) (unfixed ps) up;
  ini_elim : forall k i j, eliminated_index ps k i j = (linear k && fnan (entry (mat ps k) i j))%bool;
  ini_nan : forall k i j, i < nrows (mat ps k) -> j < ncols (mat ps k) -> linear k = false -> fnan (entry (mat ps k) i j) = false;
  ini_zero : forall k i j, feqb (entry (mat ps k) i j) (Num 0) = true -> lo k i j = Num 0 /\ up k i j = Num 0;
  ini_bounds_nan : forall k i j, fnan (lo k i j) = false /\ fnan (up k i j) = false;
  ini_within : forall k i j, i < nrows (mat ps k) -> j < ncols (mat ps k) ->
    fltb (entry (mat ps k) i j) (lo k i j) = false /\ fltb (up k i j) (entry (mat ps k) i j) = false;
  ini_default : forall k i j, given k = false -> feqb (entry (mat ps k) i j) (Num 0) = false ->
    lo k i j = NInf /\ up k i j = PInf;
  ini_unbounded : bounded = false -> forall k i j, lo k i j <> up k i j -> lo k i j = NInf /\ up k i j = PInf;
  ini_upper_sigma : forall i j, i < j -> entry (mat ps Sigma) i j = Num 0
}.

Lemma initialize_bounds_spec m bv bounded lo up : initialize_bounds m bv bounded = Some (lo, up) ->
  (forall i j, feqb (entry m i j) (Num 0) = true -> lo i j = Num 0 /\ up i j = Num 0) /\
  (forall i j, fnan (lo i j) = false /\ fnan (up i j) = false) /\
  (forall i j, i < nrows m -> j < ncols m -> fltb (entry m i j) (lo i j) = false /\ fltb (up i j) (entry m i j) = false) /\
  (bv = None -> forall i j, feqb (entry m i j) (Num 0) = false -> lo i j = NInf /\ up i j = PInf) /\
  (bounded = false -> forall i j, lo i j <> up i j -> lo i j = NInf /\ up i j = PInf).
Proof.
  unfold initialize_bounds. intro H.
  assert (Z : forall x, feqb x (Num 0) = true -> fltb x (Num 0) = false /\ fltb (Num 0) x = false).
  { intros x E. apply feqb_true in E. destruct E as [-> _]. cbn. unfold rltb. destruct (Rlt_dec 0 0); [lra|auto]. }
  assert (I : forall x, fltb x NInf = false /\ fltb PInf x = false) by (intros []; auto).
  destruct bv as [[l u]|].
  - destruct (Nat.ltb 0 (nrows m * ncols m)) eqn:Sz.
    + destruct (existsb _ (ndindex (nrows m) (ncols m))) eqn:Ex; [discriminate|]. injection H as <- <-. cbv beta.
      assert (Ex' : forall i j, i < nrows m -> j < ncols m ->
        fltb (entry m i j) (if fnan (l i j) then NInf else l i j) = false /\
        fltb (if fnan (u i j) then PInf else u i j) (entry m i j) = false).
      { intros i j Hi Hj. apply orb_false_iff.
        destruct (fltb (entry m i j) (if fnan (l i j) then NInf else l i j)
          || fltb (if fnan (u i j) then PInf else u i j) (entry m i j))%bool eqn:E; [|reflexivity]. exfalso.
        assert (T : existsb (fun ij => (fltb (entry m (fst ij) (snd ij)) (if fnan (l (fst ij) (snd ij)) then NInf else l (fst ij) (snd ij))
          || fltb (if fnan (u (fst ij) (snd ij)) then PInf else u (fst ij) (snd ij)) (entry m (fst ij) (snd ij)))%bool)
          (ndindex (nrows m) (ncols m)) = true).
        { apply existsb_exists. exists (i, j). split; [apply ndindex_in; auto|exact E]. }
        congruence. }
      split; [intros i j ->; auto|]. split.
      { intros i j. destruct (feqb (entry m i j) (Num 0)); [auto|].
        destruct (negb bounded && _)%bool; [auto|]. destruct (fnan (l i j)) eqn:E1, (fnan (u i j)) eqn:E2; auto. }
      split.
      { intros i j Hi Hj. destruct (feqb (entry m i j) (Num 0)) eqn:E0; [exact (Z _ E0)|].
        destruct (negb bounded && _)%bool; [apply I|]. apply Ex'; assumption. }
      split; [discriminate|].
      intros -> i j. cbn [negb andb]. destruct (feqb (entry m i j) (Num 0)); [intro C; exfalso; apply C; reflexivity|].
      destruct (feqb (if fnan (l i j) then NInf else l i j) (if fnan (u i j) then PInf else u i j)) eqn:E; cbn [negb]; [|auto].
      intro C. exfalso. apply C. apply feqb_true in E. tauto.
    + injection H as <- <-. cbv beta. apply Nat.ltb_ge in Sz.
      split; [intros i j ->; auto|]. split.
      { intros i j. destruct (feqb (entry m i j) (Num 0)); [auto|]. destruct (negb bounded && _)%bool; auto. }
      split; [intros i j Hi Hj; exfalso; nia|]. split; [discriminate|].
      intros -> i j. cbn. destruct (feqb (entry m i j) (Num 0)); [intro C; exfalso; apply C; reflexivity|auto].
  - injection H as <- <-. cbv beta. split; [intros i j ->; auto|]. split.
    { intros i j. destruct (feqb (entry m i j) (Num 0)); [auto|]. destruct (negb bounded && _)%bool; auto. }
    split.
    { intros i j Hi Hj. destruct (feqb (entry m i j) (Num 0)) eqn:E0; [exact (Z _ E0)|].
      destruct (negb bounded && _)%bool; apply I. }
    split; [intros _ i j ->; destruct (negb bounded && _)%bool; auto|].
    intros -> i j. cbn. destruct (feqb (entry m i j) (Num 0)); [intro C; exfalso; apply C; reflexivity|auto].
Qed.

Lemma initialize_matrix_nan values shapes m i j : initialize_matrix values shapes false = Some m ->
  i < nrows m -> j < ncols m -> fnan (entry m i j) = false.
Proof.
  unfold initialize_matrix. intros H Hi Hj.
  assert (G : forall m', existsb (fun ij => fnan (entry m' (fst ij) (snd ij))) (ndindex (nrows m') (ncols m')) = false ->
    m' = m -> fnan (entry m i j) = false).
  { intros m' E ->. destruct (fnan (entry m i j)) eqn:N; [|reflexivity]. exfalso.
    assert (T : existsb (fun ij => fnan (entry m (fst ij) (snd ij))) (ndindex (nrows m) (ncols m)) = true).
    { apply existsb_exists. exists (i, j). split; [apply ndindex_in; auto|exact N]. }
    congruence. }
  destruct values as [m'|].
  - destruct (negb (eqb _ _)); [discriminate|]. destruct (negb (existsb _ shapes)); [discriminate|].
    cbn [negb andb] in H. destruct (existsb _ (ndindex (nrows m') (ncols m'))) eqn:E; [discriminate|].
    injection H as H. exact (G m' E H).
  - destruct (forallb _ shapes); [discriminate|].
    destruct (existsb _ _) eqn:E in H; [discriminate|]. injection H as H. exact (G _ E H).
Qed.

Lemma initialize_matrix_shape values shapes an m : initialize_matrix values shapes an = Some m ->
  shapes <> [] -> In (nrows m, ncols m) shapes.
Proof.
  unfold initialize_matrix. intros H N. destruct values as [m'|].
  - destruct (negb (eqb _ _)); [discriminate|]. destruct (existsb _ shapes) eqn:E; cbn [negb] in H; [|discriminate].
    destruct (negb an && _)%bool; [discriminate|]. injection H as <-. apply existsb_exists in E.
    destruct E as [[r c] [Hin E]]. apply andb_true_iff in E. destruct E as [A B]. apply Nat.eqb_eq in A, B. cbn in A, B.
    rewrite A, B. exact Hin.
  - destruct shapes as [|[r c] s]; [contradiction|]. left. cbn [hd fst snd] in H.
    destruct an; [injection H as <-; reflexivity|]. destruct (forallb _ _); [discriminate|].
    destruct (existsb _ _) in H; [discriminate|]. injection H as <-. reflexivity.
Qed.

Lemma initialize_matrix_some v shapes an m : initialize_matrix (Some v) shapes an = Some m -> m = v.
Proof.
  unfold initialize_matrix. intro H. destruct (negb (eqb _ _)) in H; [discriminate H|].
  destruct (negb (existsb _ shapes)) in H; [discriminate H|].
  destruct (negb an && _)%bool in H; [discriminate H|]. injection H as ->. reflexivity.
Qed.

Lemma initialize_spec values shapes bv bounded nans ps :
  initialize values shapes bv bounded nans = Some ps ->
  (exists lo up, initialized bounded (fun k => is_some (bv k)) ps lo up /\
     forall k, initialize_bounds (mat ps k) (bv k) bounded = Some (lo k, up k)) /\
  (forall n, shapes Sigma = [(n, n)] -> nrows (mat ps Sigma) = n /\ ncols (mat ps Sigma) = n) /\
  (forall k, shapes k <> [] -> In (nrows (mat ps k), ncols (mat ps k)) (shapes k)) /\
  (forall k m, values k = Some m -> k <> Sigma -> mat ps k = m) /\
  (forall m i j, values Sigma = Some m -> j <= i -> entry (mat ps Sigma) i j = entry m i j).
Proof.
  unfold initialize. cbv zeta. intro H.
  set (m := matrices values shapes nans) in *.
  set (b := validated_bounds m bv bounded) in *.
  destruct (forallb (fun k => is_some (validated values shapes nans k)) kinds) eqn:E1; [|discriminate H].
  destruct (forallb (fun k => is_some (b k)) kinds) eqn:E2; [|discriminate H].
  rewrite forallb_forall in E1, E2.
  set (m0 := fun k => from_some {| nrows := 0; ncols := 0; entry := fun _ _ => NaN |} (validated values shapes nans k)).
  set (b0 := fun k : kind => bounds_of (b k)) in *.
  assert (I : forall k, validated values shapes nans k = Some (m0 k)).
  { intro k. unfold m0. assert (X := E1 k (kinds_all k)). destruct (validated values shapes nans k); [reflexivity|discriminate X]. }
  assert (B : forall k, b k = Some (fst (b0 k), snd (b0 k))).
  { intro k. unfold b0, bounds_of. assert (X := E2 k (kinds_all k)). destruct (b k) as [[x y]|]; [reflexivity|discriminate X]. }
  unfold finish in H. rewrite store_kinds, store_filter in H. cbn [app] in H. injection H as <-.
  cbn [mat lower upper eliminated_index fixed unfixed eliminated].
  assert (Dim : forall k, nrows (m k) = nrows (m0 k) /\ ncols (m k) = ncols (m0 k)) by (intros []; split; reflexivity).
  assert (Sh : forall k, shapes k <> [] -> In (nrows (m k), ncols (m k)) (shapes k)).
  { intros k N. destruct (Dim k) as [-> ->]. exact (initialize_matrix_shape _ _ _ _ (I k) N). }
  split; [|split; [|split; [exact Sh|split]]].
  - exists (fun k => fst (b0 k)), (fun k => snd (b0 k)). split; [|exact B].
    assert (S := fun k => initialize_bounds_spec (m k) (bv k) bounded _ _ (B k)).
    constructor; cbn [mat lower upper eliminated_index fixed unfixed eliminated]; try reflexivity.
    + intros k i j Hi Hj L. destruct (Dim k) as [D1 D2]. rewrite D1 in Hi. rewrite D2 in Hj.
      assert (X := I k). unfold validated in X. rewrite L in X. cbn [andb] in X.
      assert (Y := initialize_matrix_nan _ _ _ i j X Hi Hj). destruct k; try exact Y.
      unfold m, matrices; cbn [entry]; fold (m0 Sigma). destruct (Nat.ltb i j); [reflexivity|exact Y].
    + intros k. apply S.
    + intros k. apply (S k).
    + intros k i j Hi Hj. apply (S k); assumption.
    + intros k i j G. apply (S k). destruct (bv k); [discriminate|reflexivity].
    + intros Hb k. apply (S k). exact Hb.
    + intros i j L. unfold m, matrices; cbn [entry]. apply Nat.ltb_lt in L. rewrite L. reflexivity.
  - intros n Hn. assert (X : In (nrows (m Sigma), ncols (m Sigma)) (shapes Sigma)) by (apply Sh; rewrite Hn; discriminate).
    rewrite Hn in X. destruct X as [X|[]]. apply (f_equal fst) in X as X1. apply (f_equal snd) in X as X2. cbn [fst snd] in X1, X2. auto.
  - intros k v Hv Hk. transitivity (m0 k); [destruct k; try reflexivity; contradiction|].
    assert (X := I k). unfold validated in X. rewrite Hv in X. exact (initialize_matrix_some _ _ _ _ X).
  - intros v i j Hv L. unfold m, matrices; cbn [entry]. assert (Y : Nat.ltb i j = false) by (apply Nat.ltb_ge; exact L). rewrite Y.
    assert (X := I Sigma). unfold validated in X. rewrite Hv in X. change (entry (m0 Sigma) i j = entry v i j). rewrite (initialize_matrix_some _ _ _ _ X). reflexivity.
Qed.

(* ---------- Membership ---------- *)

Section Initialized.
  Variables (bounded : bool) (given : kind -> bool) (ps : parameters) (lo up : kind -> nat -> nat -> flt).
  Hypothesis ini : initialized bounded given ps lo up.
  Hypothesis square : ncols (mat ps Sigma) = nrows (mat ps Sigma).

  Lemma unfixed_nodup : NoDup (unfixed ps).
  Proof. rewrite (ini_unfixed _ _ _ _ _ ini). apply NoDup_filter, all_nodup. Qed.
  Lemma fixed_nodup : NoDup (fixed ps).
  Proof. rewrite (ini_fixed _ _ _ _ _ ini). apply NoDup_filter, all_nodup. Qed.

  Lemma unfixed_in0 k i j : In (k, (i, j)) (unfixed ps) <->
    is_entry (mat ps) k i j /\ eliminated_index ps k i j = false /\ lo k i j <> up k i j.
  Proof.
    rewrite (ini_unfixed _ _ _ _ _ ini), filter_In, all_in by exact square. cbn [elim_p has_value].
    rewrite andb_true_iff, !negb_true_iff, feqb_false by apply (ini_bounds_nan _ _ _ _ _ ini). reflexivity.
  Qed.
  Lemma fixed_in0 k i j : In (k, (i, j)) (fixed ps) <->
    is_entry (mat ps) k i j /\ eliminated_index ps k i j = false /\ lo k i j = up k i j.
  Proof.
    rewrite (ini_fixed _ _ _ _ _ ini), filter_In, all_in by exact square. cbn [elim_p has_value].
    rewrite andb_true_iff, negb_true_iff, feqb_true.
    assert (N := proj1 (ini_bounds_nan _ _ _ _ _ ini k i j)). tauto.
  Qed.
  Lemma eliminated_in k i j : In (k, (i, j)) (eliminated ps) <-> is_entry (mat ps) k i j /\ eliminated_index ps k i j = true.
  Proof. rewrite (ini_eliminated _ _ _ _ _ ini), filter_In, all_in by exact square. reflexivity. Qed.

  (** Default bounds only affect parameters in theta. *)
  Lemma bounds_other k i j : ~ In (k, (i, j)) (unfixed ps) -> lower ps k i j = lo k i j /\ upper ps k i j = up k i j.
  Proof.
    intro H. rewrite (ini_lower _ _ _ _ _ ini), (ini_upper _ _ _ _ _ ini). unfold default_lower, default_upper, member.
    destruct (in_dec parameter_eq_dec (k, (i, j)) (unfixed ps)); [contradiction|].
    rewrite andb_false_r. auto.
  Qed.

  Lemma entry_not_nan k i j : is_entry (mat ps) k i j -> eliminated_index ps k i j = false -> fnan (entry (mat ps k) i j) = false.
  Proof.
    intros [Hi [Hj _]] E. rewrite (ini_elim _ _ _ _ _ ini) in E. destruct (linear k) eqn:L; [exact E|].
    exact (ini_nan _ _ _ _ _ ini k i j Hi Hj L).
  Qed.

  Lemma within0 k i j : is_entry (mat ps) k i j -> eliminated_index ps k i j = false ->
    within (lo k i j) (entry (mat ps k) i j) (up k i j).
  Proof.
    intros H E. assert (N := entry_not_nan k i j H E). destruct H as [Hi [Hj _]].
    destruct (ini_bounds_nan _ _ _ _ _ ini k i j) as [N1 N2]. destruct (ini_within _ _ _ _ _ ini k i j Hi Hj) as [W1 W2].
    split; apply not_lt_le; assumption.
  Qed.

  Lemma fixed_value k i j : In (k, (i, j)) (fixed ps) -> lower ps k i j = entry (mat ps k) i j /\ upper ps k i j = entry (mat ps k) i j.
  Proof.
    intro H. apply fixed_in0 in H. destruct H as [H [E Q]].
    destruct (bounds_other k i j) as [-> ->]. { intro U. apply unfixed_in0 in U. tauto. }
    destruct (within0 k i j H E) as [A B]. rewrite <- Q in B. assert (X := fleb_antisym _ _ A B). split; congruence.
  Qed.

  Lemma zero_not_unfixed k i j : entry (mat ps k) i j = Num 0 -> ~ In (k, (i, j)) (unfixed ps).
  Proof.
    intros Z U. apply unfixed_in0 in U. destruct U as [_ [_ U]]. apply U.
    destruct (ini_zero _ _ _ _ _ ini k i j) as [-> ->]; [|reflexivity]. rewrite Z. apply feqb_true. auto.
  Qed.

  (** Final bounds of a parameter in theta are distinct and contain its starting value. *)
  Lemma unfixed_bounds k i j : In (k, (i, j)) (unfixed ps) ->
    within (lower ps k i j) (entry (mat ps k) i j) (upper ps k i j) /\ lower ps k i j <> upper ps k i j.
  Proof.
    intro U. assert (U' := U). apply unfixed_in0 in U'. destruct U' as [H [E D]].
    assert (W := within0 k i j H E). assert (N := entry_not_nan k i j H E).
    rewrite (ini_lower _ _ _ _ _ ini), (ini_upper _ _ _ _ _ ini). unfold default_lower, default_upper, member.
    destruct (in_dec parameter_eq_dec (k, (i, j)) (unfixed ps)); [|contradiction].
    destruct (bounded && true && negb (given k))%bool eqn:B; [|auto].
    apply andb_true_iff in B. destruct B as [_ G]. apply negb_true_iff in G.
    assert (Z : feqb (entry (mat ps k) i j) (Num 0) = false).
    { apply feqb_false; [exact N|]. intro Z. exact (zero_not_unfixed k i j Z U). }
    destruct (ini_default _ _ _ _ _ ini k i j G Z) as [L Up].
    destruct k; auto; unfold py_min, py_max.
    - destruct (Nat.eqb i j); [|auto]. rewrite Up in *. split.
      + split; [|apply W]. destruct (fltb (entry (mat ps Sigma) i j) (Num 0)) eqn:F; [apply fleb_refl, N|].
        apply not_lt_le; auto.
      + destruct (entry (mat ps Sigma) i j); cbn; try discriminate. destruct (rltb r 0); discriminate.
    - split; [split|].
      + destruct (fltb (entry (mat ps Rho) i j) (Num 0)) eqn:F; [apply fleb_refl, N|]. apply not_lt_le; auto.
      + destruct (fltb (Num (99 / 100)) (entry (mat ps Rho) i j)) eqn:F; [apply fleb_refl, N|]. apply not_lt_le; auto.
      + destruct (entry (mat ps Rho) i j); cbn; try discriminate. unfold rltb.
        destruct (Rlt_dec r 0), (Rlt_dec (99 / 100) r); intro X;
          apply (f_equal (fun f => match f with Num x => x | _ => 0%R end)) in X; cbn beta iota in X; lra.
  Qed.

  Lemma unfixed_in k i j : In (k, (i, j)) (unfixed ps) <->
    is_entry (mat ps) k i j /\ eliminated_index ps k i j = false /\ lower ps k i j <> upper ps k i j.
  Proof.
    split.
    - intro U. assert (V := U). apply unfixed_in0 in V. split; [tauto|]. split; [tauto|]. apply unfixed_bounds. exact U.
    - intros [H [E D]]. destruct (in_dec parameter_eq_dec (k, (i, j)) (unfixed ps)) as [U|U]; [exact U|].
      destruct (bounds_other k i j U) as [A B]. rewrite A, B in D. apply unfixed_in0. auto.
  Qed.

  Lemma fixed_in k i j : In (k, (i, j)) (fixed ps) <->
    is_entry (mat ps) k i j /\ eliminated_index ps k i j = false /\ lower ps k i j = upper ps k i j.
  Proof.
    split.
    - intro F. assert (V := F). apply fixed_in0 in V. split; [tauto|]. split; [tauto|].
      destruct (fixed_value k i j F). congruence.
    - intros [H [E D]]. apply fixed_in0. split; [assumption|]. split; [assumption|].
      destruct (in_dec parameter_eq_dec (k, (i, j)) (unfixed ps)) as [U|U].
      + exfalso. apply unfixed_bounds in U. tauto.
      + destruct (bounds_other k i j U). congruence.
  Qed.

  (* ---------- compress and expand ---------- *)

  Lemma filter_kind_app k l l' : filter (is_kind k) (l ++ l') = filter (is_kind k) l ++ filter (is_kind k) l'.
  Proof. apply filter_app. Qed.

  (** Collecting parameters class by class gives them in order. *)
  Lemma unfixed_by_kind : flat_map (fun k => filter (is_kind k) (unfixed ps)) kinds = unfixed ps.
  Proof.
    rewrite (ini_unfixed _ _ _ _ _ ini). generalize (fun p : parameter =>
      (negb (elim_p (eliminated_index ps) p) && negb (has_value lo up p))%bool). intro f.
    unfold all_parameters.
    assert (A : forall k, filter (is_kind k) (filter f (flat_map (fun k => map (pair k) (locations (mat ps) k)) kinds))
                = filter f (map (pair k) (locations (mat ps) k))).
    { intro k.
      assert (Same : forall l, filter (is_kind k) (filter f (map (pair k) l)) = filter f (map (pair k) l)).
      { induction l as [|x l IH]; [reflexivity|]. cbn [map filter]. destruct (f (k, x)); [|exact IH].
        cbn [filter]. unfold is_kind at 1. cbn [fst]. destruct (kind_eq_dec k k); [|contradiction]. rewrite IH. reflexivity. }
      assert (Diff : forall k' l, k' <> k -> filter (is_kind k) (filter f (map (pair k') l)) = []).
      { intros k' l D. induction l as [|x l IH]; [reflexivity|]. cbn [map filter]. destruct (f (k', x)); [|exact IH].
        cbn [filter]. unfold is_kind at 1. cbn [fst]. destruct (kind_eq_dec k' k); [contradiction|exact IH]. }
      unfold kinds. cbn [flat_map]. rewrite !filter_app. cbn [filter].
      destruct k; rewrite ?Same, ?Diff by discriminate; rewrite ?app_nil_r; reflexivity. }
    rewrite (flat_map_ext _ _ A). unfold kinds. cbn [flat_map]. rewrite !filter_app. cbn [filter]. reflexivity.
  Qed.

  Lemma compress_map v : compress_with ps v = map (at_location v) (unfixed ps).
  Proof.
    transitivity (map (at_location v) (flat_map (fun k => filter (is_kind k) (unfixed ps)) kinds)); [|rewrite unfixed_by_kind; reflexivity].
    unfold compress_with. generalize kinds. intro l. induction l as [|k l IH]; [reflexivity|].
    cbn [flat_map]. rewrite map_app, IH. reflexivity.
  Qed.

  Lemma fill_other v l k i j : ~ In (k, (i, j)) (map fst l) -> fill v l k i j = v k i j.
  Proof.
    revert v. induction l as [|[p x] l IH]; intros v H; [reflexivity|]. cbn [fill].
    cbn [map fst] in H. rewrite IH by (intro; apply H; right; assumption). unfold assign.
    destruct (parameter_eq_dec (k, (i, j)) p) as [E|]; [|reflexivity]. exfalso. apply H. left. symmetry. exact E.
  Qed.
  Lemma fill_in v l k i j x : NoDup (map fst l) -> In ((k, (i, j)), x) l -> fill v l k i j = x.
  Proof.
    revert v. induction l as [|[p y] l IH]; intros v ND H; [destruct H|]. cbn [fill]. cbn [map fst] in ND.
    inversion ND as [|? ? Hp ND']; subst. destruct H as [H|H].
    - injection H as -> ->. rewrite fill_other by exact Hp. unfold assign.
      destruct (parameter_eq_dec (k, (i, j)) (k, (i, j))); [reflexivity|contradiction].
    - apply IH; assumption.
  Qed.

  Lemma combine_keys {A B} (l : list A) (l' : list B) : length l = length l' -> map fst (combine l l') = l.
  Proof. revert l'. induction l as [|a l IH]; intros [|b l'] H; try discriminate; [reflexivity|]. cbn. f_equal. apply IH. cbn in H. lia. Qed.

  (** Elements of an expanded theta. *)
  Lemma expand_unfixed theta nullify n k i j : length theta = length (unfixed ps) ->
    nth_error (unfixed ps) n = Some (k, (i, j)) -> expand ps theta nullify k i j = nth n theta NaN.
  Proof.
    intros L E. assert (U : In (k, (i, j)) (unfixed ps)) by (eapply nth_error_In; exact E).
    assert (F : fill (fun _ _ _ => NaN) (combine (unfixed ps) theta) k i j = nth n theta NaN).
    { apply fill_in.
      - rewrite combine_keys by (symmetry; exact L). exact unfixed_nodup.
      - assert (Hn : n < length (unfixed ps)) by (apply nth_error_Some; congruence).
        assert (C : nth n (combine (unfixed ps) theta) ((Sigma, (0, 0)), NaN) = ((k, (i, j)), nth n theta NaN)).
        { rewrite combine_nth by (symmetry; exact L). f_equal. apply nth_error_nth with (d := (Sigma, (0, 0))) in E. exact E. }
        rewrite <- C. apply nth_In. rewrite combine_length. lia. }
    unfold expand. destruct nullify; [exact F|].
    rewrite fill_other.
    - destruct k; try exact F. destruct (Nat.ltb i j) eqn:Lt; [|exact F]. exfalso.
      apply unfixed_in in U. destruct U as [[_ [_ U]] _]. apply Nat.ltb_lt in Lt. specialize (U eq_refl). lia.
    - rewrite map_map. cbn [fst]. rewrite map_id. intro X. apply fixed_in in X. apply unfixed_in in U. tauto.
  Qed.

  Lemma expand_fixed theta k i j : In (k, (i, j)) (fixed ps) -> expand ps theta false k i j = entry (mat ps k) i j.
  Proof.
    intro F. unfold expand. destruct (fixed_value k i j F) as [<- _]. apply fill_in.
    - rewrite map_map. cbn [fst]. rewrite map_id. exact fixed_nodup.
    - apply in_map_iff. exists (k, (i, j)). split; [reflexivity|exact F].
  Qed.

  Lemma expand_eliminated theta nullify k i j : length theta = length (unfixed ps) ->
    is_entry (mat ps) k i j -> eliminated_index ps k i j = true -> expand ps theta nullify k i j = NaN.
  Proof.
    intros L H E. unfold expand.
    assert (F : fill (fun _ _ _ => NaN) (combine (unfixed ps) theta) k i j = NaN).
    { apply fill_other. rewrite combine_keys by (symmetry; exact L). intro U. apply unfixed_in in U. destruct U as [_ [U _]]. congruence. }
    destruct nullify; [exact F|]. rewrite fill_other.
    - destruct k; try exact F. rewrite (ini_elim _ _ _ _ _ ini) in E. discriminate E.
    - rewrite map_map. cbn [fst]. rewrite map_id. intro X. apply fixed_in in X. destruct X as [_ [X _]]. congruence.
  Qed.

  Lemma expand_nullified theta k i j : length theta = length (unfixed ps) ->
    In (k, (i, j)) (fixed ps) -> expand ps theta true k i j = NaN.
  Proof.
    intros L F. unfold expand. apply fill_other. rewrite combine_keys by (symmetry; exact L). intro U.
    apply unfixed_in in U. apply fixed_in in F. tauto.
  Qed.

  Lemma expand_upper theta i j : length theta = length (unfixed ps) -> i < j -> expand ps theta false Sigma i j = Num 0.
  Proof.
    intros L H. unfold expand. rewrite fill_other.
    - apply Nat.ltb_lt in H. rewrite H. reflexivity.
    - rewrite map_map. cbn [fst]. rewrite map_id. intro X. apply fixed_in in X. destruct X as [[_ [_ X]] _].
      specialize (X eq_refl). lia.
  Qed.

  Lemma classify k i j : is_entry (mat ps) k i j ->
    In (k, (i, j)) (unfixed ps) \/ In (k, (i, j)) (fixed ps) \/ In (k, (i, j)) (eliminated ps).
  Proof.
    intro H. destruct (eliminated_index ps k i j) eqn:E; [right; right; apply eliminated_in; auto|].
    destruct (feqb (lo k i j) (up k i j)) eqn:Q.
    - right; left. apply fixed_in0. apply feqb_true in Q. tauto.
    - left. apply unfixed_in0. apply feqb_false in Q; [auto|apply (ini_bounds_nan _ _ _ _ _ ini)].
  Qed.

  (** compress then expand. *)
  Lemma expand_compress k i j : i < nrows (mat ps k) -> j < ncols (mat ps k) ->
    expand ps (compress ps) false k i j = entry (mat ps k) i j.
  Proof.
    intros Hi Hj.
    assert (L : length (compress ps) = length (unfixed ps)) by (unfold compress; rewrite compress_map; apply map_length).
    assert (Q : (k = Sigma /\ i < j) \/ is_entry (mat ps) k i j).
    { unfold is_entry. destruct k; try (right; repeat split; try assumption; discriminate).
      destruct (le_lt_dec j i); [right; auto|left; auto]. }
    destruct Q as [[-> H]|H].
    - rewrite expand_upper by assumption. symmetry. apply (ini_upper_sigma _ _ _ _ _ ini). exact H.
    - destruct (classify k i j H) as [U|[F|E]].
      + apply In_nth_error in U. destruct U as [n E].
        rewrite (expand_unfixed (compress ps) false n k i j L E). unfold compress. rewrite compress_map.
        assert (X := map_nth_error (at_location (fun k => entry (mat ps k))) n (unfixed ps) E).
        apply nth_error_nth with (d := NaN) in X. exact X.
      + apply expand_fixed. exact F.
      + apply eliminated_in in E. destruct E as [_ E]. rewrite expand_eliminated by assumption.
        rewrite (ini_elim _ _ _ _ _ ini) in E. apply andb_true_iff in E. destruct E as [_ E].
        destruct (entry (mat ps k) i j); try discriminate. reflexivity.
  Qed.

  (** expand then compress. *)
  Lemma compress_expand theta nullify : length theta = length (unfixed ps) ->
    compress_with ps (expand ps theta nullify) = theta.
  Proof.
    intro L. rewrite compress_map. apply nth_ext with (d := NaN) (d' := NaN); [rewrite map_length; congruence|].
    intros n Hn. rewrite map_length in Hn.
    destruct (nth_error (unfixed ps) n) as [[k [i j]]|] eqn:E; [|apply nth_error_None in E; lia].
    assert (X := map_nth_error (at_location (expand ps theta nullify)) n (unfixed ps) E).
    apply nth_error_nth with (d := NaN) in X. rewrite X. unfold at_location. cbn [fst snd].
    apply expand_unfixed; assumption.
  Qed.

  Lemma theta_within : Forall2 (fun x b => within (fst b) x (snd b)) (compress ps) (compress_bounds ps).
  Proof.
    unfold compress, compress_bounds. rewrite !compress_map.
    assert (H : forall p, In p (unfixed ps) -> within (at_location (lower ps) p) (at_location (fun k => entry (mat ps k)) p) (at_location (upper ps) p)).
    { intros [k [i j]] U. apply unfixed_bounds. exact U. }
    induction (unfixed ps) as [|p l IH]; [constructor|]. cbn [map combine]. constructor.
    - cbn [fst snd]. apply H. left. reflexivity.
    - apply IH. intros q Hq. apply H. right. exact Hq.
  Qed.

  (* ---------- Standard errors of sigma ---------- *)

  Lemma position_spec p : forall l from found, NoDup l ->
    (forall n, nth_error l n = Some p -> position l p from found = Some (from + n)) /\
    (~ In p l -> position l p from found = found).
  Proof.
    induction l as [|q l IH]; intros from found ND.
    - split; [intros [|n] H; discriminate|reflexivity].
    - inversion ND as [|? ? Hq ND']; subst. cbn [position]. split.
      + intros [|n] H.
        * injection H as ->. destruct (parameter_eq_dec p p); [|contradiction].
          rewrite (proj2 (IH _ _ ND')) by exact Hq. f_equal. lia.
        * cbn [nth_error] in H. rewrite (proj1 (IH _ _ ND') n H). f_equal. lia.
      + intro H. destruct (parameter_eq_dec p q) as [->|]; [exfalso; apply H; left; reflexivity|].
        apply IH; [assumption|]. intro. apply H. right. assumption.
  Qed.

  Lemma extract_spec cov a b ija ijb :
    nth_error (vech_indices (nrows (mat ps Sigma))) a = Some ija ->
    nth_error (vech_indices (nrows (mat ps Sigma))) b = Some ijb ->
    (forall m n, nth_error (unfixed ps) m = Some (Sigma, ija) -> nth_error (unfixed ps) n = Some (Sigma, ijb) ->
       extract_sigma_vector_covariances ps cov a b = cov m n) /\
    (~ In (Sigma, ija) (unfixed ps) \/ ~ In (Sigma, ijb) (unfixed ps) -> extract_sigma_vector_covariances ps cov a b = 0%R).
  Proof.
    intros Ha Hb. unfold extract_sigma_vector_covariances. cbv zeta.
    set (P := length (unfixed ps)).
    set (g := fun ij => from_some P (position (unfixed ps) (Sigma, ij) 0 None)).
    assert (A := map_nth_error g _ _ Ha). assert (B := map_nth_error g _ _ Hb).
    apply nth_error_nth with (d := P) in A. apply nth_error_nth with (d := P) in B.
    rewrite A, B. split.
    - intros m n Hm Hn. unfold g.
      rewrite (proj1 (position_spec (Sigma, ija) (unfixed ps) 0 None unfixed_nodup) m Hm).
      rewrite (proj1 (position_spec (Sigma, ijb) (unfixed ps) 0 None unfixed_nodup) n Hn). cbn [from_some].
      assert (m < P) by (apply nth_error_Some; congruence). assert (n < P) by (apply nth_error_Some; congruence).
      change (0 + m) with m. change (0 + n) with n.
      assert (X : Nat.ltb m P = true) by (apply Nat.ltb_lt; assumption). assert (Y : Nat.ltb n P = true) by (apply Nat.ltb_lt; assumption).
      rewrite X, Y. reflexivity.
    - assert (Z : Nat.ltb P P = false) by (apply Nat.ltb_ge; lia).
      intros [H|H]; unfold g; rewrite (proj2 (position_spec _ (unfixed ps) 0 None unfixed_nodup) H); cbn [from_some];
        rewrite Z; [reflexivity|rewrite andb_false_r; reflexivity].
  Qed.

  (* ---------- Bootstrap ---------- *)

  Lemma clip_within x l u : fnan x = false -> fleb l u = true -> within l (clip x l u) u.
  Proof.
    intros N H. destruct (fleb_nan _ _ H) as [Nl Nu]. unfold clip, fmax, fmin. rewrite N, Nl. cbn [orb].
    destruct (fltb x l) eqn:F.
    - rewrite Nl, Nu. cbn [orb]. destruct (fltb u l) eqn:G.
      + assert (E : u = l). { apply fleb_antisym; [|exact H]. unfold fleb. rewrite G. reflexivity. }
        subst. split; apply fleb_refl; assumption.
      + split; [apply fleb_refl; assumption|exact H].
    - rewrite N, Nu. cbn [orb]. destruct (fltb u x) eqn:G.
      + split; [exact H|apply fleb_refl; assumption].
      + split; apply not_lt_le; assumption.
  Qed.

  Lemma bootstrap_bounds theta elim k i j : length theta = length (unfixed ps) ->
    (forall x, In x theta -> fnan x = false) -> (forall k i j, fnan (elim k i j) = false) ->
    i < nrows (mat ps k) -> j < ncols (mat ps k) ->
    (eliminated_index ps k i j = true -> fleb (lower ps k i j) (upper ps k i j) = true) ->
    within (lower ps k i j) (bootstrap_draw ps theta elim k i j) (upper ps k i j).
  Proof.
    intros L T E Hi Hj B. unfold bootstrap_draw.
    assert (W : eliminated_index ps k i j = false -> within (lower ps k i j) (entry (mat ps k) i j) (upper ps k i j)).
    { intro El. assert (Q : (k = Sigma /\ i < j) \/ is_entry (mat ps) k i j).
      { unfold is_entry. destruct k; try (right; repeat split; try assumption; discriminate).
        destruct (le_lt_dec j i); [right; auto|left; auto]. }
      destruct Q as [[-> H]|H].
      - assert (Z := ini_upper_sigma _ _ _ _ _ ini i j H).
        destruct (bounds_other Sigma i j (zero_not_unfixed _ _ _ Z)) as [-> ->].
        destruct (ini_zero _ _ _ _ _ ini Sigma i j) as [-> ->]; [rewrite Z; apply feqb_true; auto|].
        rewrite Z. split; apply fleb_refl; reflexivity.
      - destruct (classify k i j H) as [U|[F|X]].
        + apply unfixed_bounds. exact U.
        + destruct (fixed_value k i j F) as [-> ->]. assert (N := entry_not_nan k i j H El). split; apply fleb_refl; exact N.
        + apply eliminated_in in X. destruct X. congruence. }
    destruct (eliminated_index ps k i j) eqn:El.
    - apply clip_within; auto.
    - assert (W' := W eq_refl). apply clip_within.
      + assert (Q : (k = Sigma /\ i < j) \/ is_entry (mat ps) k i j).
        { unfold is_entry. destruct k; try (right; repeat split; try assumption; discriminate).
          destruct (le_lt_dec j i); [right; auto|left; auto]. }
        destruct Q as [[-> H]|H]; [rewrite expand_upper by assumption; reflexivity|].
        destruct (classify k i j H) as [U|[F|X]].
        * apply In_nth_error in U. destruct U as [n En]. rewrite (expand_unfixed theta false n k i j L En).
          apply T, nth_In. rewrite L. apply (proj1 (nth_error_Some (unfixed ps) n)). intro Q. discriminate (eq_trans (eq_sym En) Q).
        * rewrite expand_fixed by exact F. apply entry_not_nan; assumption.
        * apply eliminated_in in X. destruct X. congruence.
      + destruct W' as [W1 W2]. destruct (fleb (lower ps k i j) (upper ps k i j)) eqn:X; [reflexivity|].
        exfalso. clear - W1 W2 X. destruct (lower ps k i j), (entry (mat ps k) i j), (upper ps k i j);
          unfold fleb, fltb, rltb in *; cbn in *; unfold reqb in *; try discriminate;
          repeat match goal with H : context [if ?c then _ else _] |- _ => destruct c end; try discriminate; lra.
  Qed.

  Lemma bootstrap_fixed theta elim k i j : length theta = length (unfixed ps) ->
    In (k, (i, j)) (fixed ps) -> bootstrap_draw ps theta elim k i j = entry (mat ps k) i j.
  Proof.
    intros L F. unfold bootstrap_draw. assert (F' := F). apply fixed_in in F'. destruct F' as [H [E _]].
    rewrite E, expand_fixed by exact F. destruct (fixed_value k i j F) as [-> ->].
    assert (N := entry_not_nan k i j H E). unfold clip, fmax, fmin. rewrite N. cbn [orb].
    assert (X : fltb (entry (mat ps k) i j) (entry (mat ps k) i j) = false).
    { destruct (entry (mat ps k) i j); cbn; try reflexivity. unfold rltb. destruct (Rlt_dec r r); [lra|reflexivity]. }
    rewrite X, N. cbn [orb]. rewrite X. reflexivity.
  Qed.

  (* ---------- Printed standard errors ---------- *)

  Lemma vector_printed k i : ncols (mat ps k) <= 1 -> k <> Sigma -> i < nrows (mat ps k) ->
    (vector_se_printed ps k i = false <-> In (k, (i, 0)) (fixed ps)).
  Proof.
    intros C NS Hi. unfold vector_se_printed, fixed_indices. rewrite negb_false_iff, existsb_exists. split.
    - intros [x [Hx Ex]]. apply Nat.eqb_eq in Ex. subst x. apply in_map_iff in Hx. destruct Hx as [[k' [i' j']] [E Hp]].
      cbn [fst snd] in E. subst i'. apply filter_In in Hp. destruct Hp as [Hp Hk]. unfold is_kind in Hk. cbn [fst] in Hk.
      destruct (kind_eq_dec k' k); [|discriminate]. subst k'. assert (Q := Hp). apply fixed_in in Q. destruct Q as [[_ [Q _]] _].
      assert (j' = 0) by lia. subst. exact Hp.
    - intro F. exists i. split; [|apply Nat.eqb_refl]. apply in_map_iff. exists (k, (i, 0)). split; [reflexivity|].
      apply filter_In. split; [exact F|]. unfold is_kind. cbn [fst]. destruct (kind_eq_dec k k); [reflexivity|contradiction].
  Qed.

  Lemma row_in k i j l : existsb (Nat.eqb j) (map (fun p => snd (snd p))
      (filter (is_kind k) (filter (fun p => Nat.eqb (fst (snd p)) i) l))) = true <-> In (k, (i, j)) l.
  Proof.
    rewrite existsb_exists. split.
    - intros [x [Hx Ex]]. apply Nat.eqb_eq in Ex. subst x. apply in_map_iff in Hx. destruct Hx as [[k' [i' j']] [E Hp]].
      cbn [snd] in E. subst j'. apply filter_In in Hp. destruct Hp as [Hp Hk]. apply filter_In in Hp. destruct Hp as [Hp Hi].
      cbn [fst snd] in Hi. apply Nat.eqb_eq in Hi. subst i'. unfold is_kind in Hk. cbn [fst] in Hk.
      destruct (kind_eq_dec k' k); [|discriminate]. subst. exact Hp.
    - intro F. exists j. split; [|apply Nat.eqb_refl]. apply in_map_iff. exists (k, (i, j)). split; [reflexivity|].
      apply filter_In. split; [apply filter_In; split; [exact F|cbn; apply Nat.eqb_refl]|].
      unfold is_kind. cbn [fst]. destruct (kind_eq_dec k k); [reflexivity|contradiction].
  Qed.
End Initialized.

(* ---------- Statements about [initialize] ---------- *)

Section Accepted.
  Context {values : kind -> option matrix} {shapes : kind -> list (nat * nat)} {bv : kind -> option bounds}
          {bounded nans : bool} {ps : parameters} {n : nat}.
  Hypothesis ok : initialize values shapes bv bounded nans = Some ps.
  Hypothesis sq : shapes Sigma = [(n, n)].

  Lemma accepted : exists lo up, initialized bounded (fun k => is_some (bv k)) ps lo up /\
    (forall k, initialize_bounds (mat ps k) (bv k) bounded = Some (lo k, up k)) /\ ncols (mat ps Sigma) = nrows (mat ps Sigma).
  Proof.
    destruct (initialize_spec _ _ _ _ _ _ ok) as [[lo [up [I B]]] [Sq _]]. exists lo, up. split; [exact I|]. split; [exact B|].
    destruct (Sq n sq). congruence.
  Qed.

  Lemma accepted_expand_compress k i j : i < nrows (mat ps k) -> j < ncols (mat ps k) ->
    expand ps (compress ps) false k i j = entry (mat ps k) i j.
  Proof. destruct accepted as [lo [up [I [_ S]]]]. exact (expand_compress _ _ _ _ _ I S k i j). Qed.
  Lemma accepted_compress_expand theta nullify : length theta = length (unfixed ps) ->
    compress_with ps (expand ps theta nullify) = theta.
  Proof. destruct accepted as [lo [up [I [_ S]]]]. exact (compress_expand _ _ _ _ _ I S theta nullify). Qed.
  Lemma accepted_fixed theta k i j : In (k, (i, j)) (fixed ps) ->
    expand ps theta false k i j = entry (mat ps k) i j /\
    (length theta = length (unfixed ps) -> expand ps theta true k i j = NaN).
  Proof.
    destruct accepted as [lo [up [I [_ S]]]]. intro F. split; [exact (expand_fixed _ _ _ _ _ I S theta k i j F)|].
    intro L. exact (expand_nullified _ _ _ _ _ I S theta k i j L F).
  Qed.
  Lemma accepted_position theta nullify m k i j : length theta = length (unfixed ps) ->
    nth_error (unfixed ps) m = Some (k, (i, j)) -> expand ps theta nullify k i j = nth m theta NaN.
  Proof. destruct accepted as [lo [up [I [_ S]]]]. exact (expand_unfixed _ _ _ _ _ I S theta nullify m k i j). Qed.
  Lemma accepted_nodup : NoDup (unfixed ps).
  Proof. destruct accepted as [lo [up [I [_ S]]]]. exact (unfixed_nodup _ _ _ _ _ I). Qed.

  Lemma accepted_partition k i j : is_entry (mat ps) k i j ->
    (In (k, (i, j)) (unfixed ps) /\ ~ In (k, (i, j)) (fixed ps) /\ ~ In (k, (i, j)) (eliminated ps)) \/
    (~ In (k, (i, j)) (unfixed ps) /\ In (k, (i, j)) (fixed ps) /\ ~ In (k, (i, j)) (eliminated ps)) \/
    (~ In (k, (i, j)) (unfixed ps) /\ ~ In (k, (i, j)) (fixed ps) /\ In (k, (i, j)) (eliminated ps)).
  Proof.
    destruct accepted as [lo [up [I [_ S]]]]. intro H.
    rewrite (unfixed_in _ _ _ _ _ I S), (fixed_in _ _ _ _ _ I S), (eliminated_in _ _ _ _ _ I S).
    destruct (eliminated_index ps k i j).
    - right; right. split; [intros [_ [X _]]; discriminate|]. split; [intros [_ [X _]]; discriminate|auto].
    - assert (D : {lower ps k i j = upper ps k i j} + {lower ps k i j <> upper ps k i j}).
      { destruct (lower ps k i j), (upper ps k i j); try (right; discriminate); try (left; reflexivity).
        destruct (Req_EM_T r r0) as [->|]; [left; reflexivity|right; intro X; injection X; auto]. }
      destruct D; [right; left|left]; (split; [tauto|]); (split; [tauto|]); intros [_ X]; discriminate.
  Qed.

  Lemma accepted_unfixed k i j : In (k, (i, j)) (unfixed ps) <->
    is_entry (mat ps) k i j /\ ~ (linear k = true /\ entry (mat ps k) i j = NaN) /\ lower ps k i j <> upper ps k i j.
  Proof.
    destruct accepted as [lo [up [I [_ S]]]]. rewrite (unfixed_in _ _ _ _ _ I S), (ini_elim _ _ _ _ _ I).
    assert (X : (linear k && fnan (entry (mat ps k) i j))%bool = false <-> ~ (linear k = true /\ entry (mat ps k) i j = NaN)).
    { destruct (linear k), (entry (mat ps k) i j); cbn; split; intros; try tauto; try (intros [? ?]; discriminate);
        try discriminate; exfalso; auto. }
    rewrite X. reflexivity.
  Qed.
  Lemma accepted_zero k i j : entry (mat ps k) i j = Num 0 -> ~ In (k, (i, j)) (unfixed ps).
  Proof. destruct accepted as [lo [up [I [_ S]]]]. exact (zero_not_unfixed _ _ _ _ _ I S k i j). Qed.
  (** Specified bounds that coincide. *)
  Lemma accepted_equal l u k i j : bv k = Some (l, u) -> feqb (l i j) (u i j) = true -> ~ In (k, (i, j)) (unfixed ps).
  Proof.
    intros B E U. destruct accepted as [lo [up [I [Bd S]]]].
    apply (unfixed_in0 _ _ _ _ _ I S) in U. destruct U as [[Hi [Hj _]] [_ U]]. apply U.
    specialize (Bd k). rewrite B in Bd. unfold initialize_bounds in Bd.
    assert (Sz : Nat.ltb 0 (nrows (mat ps k) * ncols (mat ps k)) = true) by (apply Nat.ltb_lt; nia).
    rewrite Sz in Bd. destruct (existsb _ _) in Bd; [discriminate Bd|].
    apply (f_equal (fun o => match o with Some b => b | None => (lo k, up k) end)) in Bd. cbv beta iota zeta in Bd.
    assert (B1 := f_equal fst Bd). assert (B2 := f_equal snd Bd). cbn [fst snd] in B1, B2.
    rewrite <- B1, <- B2. destruct (feqb (entry (mat ps k) i j) (Num 0)); [reflexivity|].
    apply feqb_true in E. destruct E as [E N]. rewrite <- E, N.
    destruct (negb bounded && _)%bool eqn:D; [|reflexivity]. exfalso. apply andb_true_iff in D. destruct D as [_ D].
    apply negb_true_iff in D. assert (T : feqb (l i j) (l i j) = true) by (apply feqb_true; auto). congruence.
  Qed.
  Lemma accepted_within : Forall2 (fun x b => within (fst b) x (snd b)) (compress ps) (compress_bounds ps).
  Proof. destruct accepted as [lo [up [I [_ S]]]]. exact (theta_within _ _ _ _ _ I S). Qed.
  Lemma accepted_not_nan k i j : is_entry (mat ps) k i j -> fnan (lower ps k i j) = false /\ fnan (upper ps k i j) = false.
  Proof.
    destruct accepted as [lo [up [I [_ S]]]]. intro H.
    destruct (in_dec parameter_eq_dec (k, (i, j)) (unfixed ps)) as [U|U].
    - destruct (unfixed_bounds _ _ _ _ _ I S k i j U) as [[A B] _].
      apply fleb_nan in A. apply fleb_nan in B. tauto.
    - destruct (bounds_other _ _ _ _ _ I k i j U) as [-> ->]. apply (ini_bounds_nan _ _ _ _ _ I).
  Qed.
  Lemma accepted_unbounded : bounded = false -> forall k i j, In (k, (i, j)) (unfixed ps) -> lower ps k i j = NInf /\ upper ps k i j = PInf.
  Proof.
    destruct accepted as [lo [up [I [_ S]]]]. intros B k i j U.
    apply (unfixed_in0 _ _ _ _ _ I S) in U. destruct U as [_ [_ D]].
    rewrite (ini_lower _ _ _ _ _ I), (ini_upper _ _ _ _ _ I). unfold default_lower, default_upper. rewrite B. cbn [andb].
    apply (ini_unbounded _ _ _ _ _ I B). exact D.
  Qed.
  (** Bounds that are specified are the ones that are used, with infinities in place of NaN. *)
  Lemma accepted_specified l u k i j : bounded = true -> bv k = Some (l, u) -> In (k, (i, j)) (unfixed ps) ->
    lower ps k i j = (if fnan (l i j) then NInf else l i j) /\ upper ps k i j = (if fnan (u i j) then PInf else u i j).
  Proof.
    intros Bo B U. destruct accepted as [lo [up [I [Bd S]]]].
    assert (Z : feqb (entry (mat ps k) i j) (Num 0) = false).
    { destruct (feqb (entry (mat ps k) i j) (Num 0)) eqn:Z; [|reflexivity]. exfalso. apply feqb_true in Z.
      exact (zero_not_unfixed _ _ _ _ _ I S k i j (proj1 Z) U). }
    rewrite (ini_lower _ _ _ _ _ I), (ini_upper _ _ _ _ _ I). unfold default_lower, default_upper. rewrite B. cbn [is_some negb].
    rewrite andb_false_r.
    apply (unfixed_in0 _ _ _ _ _ I S) in U. destruct U as [[Hi [Hj _]] _].
    specialize (Bd k). rewrite B in Bd. unfold initialize_bounds in Bd.
    assert (Sz : Nat.ltb 0 (nrows (mat ps k) * ncols (mat ps k)) = true) by (apply Nat.ltb_lt; nia).
    rewrite Sz in Bd. destruct (existsb _ _) in Bd; [discriminate Bd|].
    apply (f_equal (fun o => match o with Some b => b | None => (lo k, up k) end)) in Bd. cbv beta iota zeta in Bd.
    assert (B1 := f_equal fst Bd). assert (B2 := f_equal snd Bd). cbn [fst snd] in B1, B2.
    rewrite <- B1, <- B2, Z, Bo. cbn [negb andb]. split; reflexivity.
  Qed.

  Lemma accepted_bootstrap theta elim k i j : length theta = length (unfixed ps) ->
    (forall x, In x theta -> fnan x = false) -> (forall k i j, fnan (elim k i j) = false) ->
    i < nrows (mat ps k) -> j < ncols (mat ps k) ->
    (linear k = true -> entry (mat ps k) i j = NaN -> fleb (lower ps k i j) (upper ps k i j) = true) ->
    within (lower ps k i j) (bootstrap_draw ps theta elim k i j) (upper ps k i j).
  Proof.
    destruct accepted as [lo [up [I [_ S]]]]. intros L T E Hi Hj B.
    apply (bootstrap_bounds _ _ _ _ _ I S); auto.
    intro X. rewrite (ini_elim _ _ _ _ _ I) in X. apply andb_true_iff in X. destruct X as [X1 X2].
    apply B; [exact X1|]. destruct (entry (mat ps k) i j); discriminate || reflexivity.
  Qed.
  Lemma accepted_bootstrap_fixed theta elim k i j : length theta = length (unfixed ps) ->
    In (k, (i, j)) (fixed ps) -> bootstrap_draw ps theta elim k i j = entry (mat ps k) i j.
  Proof. destruct accepted as [lo [up [I [_ S]]]]. exact (bootstrap_fixed _ _ _ _ _ I S theta elim k i j). Qed.

  Lemma accepted_vector_printed k i : ncols (mat ps k) <= 1 -> k <> Sigma -> i < nrows (mat ps k) ->
    (vector_se_printed ps k i = false <-> In (k, (i, 0)) (fixed ps)).
  Proof. destruct accepted as [lo [up [I [_ S]]]]. exact (vector_printed _ _ _ _ _ I S k i). Qed.
  Lemma accepted_extract cov a b ija ijb :
    nth_error (vech_indices (nrows (mat ps Sigma))) a = Some ija ->
    nth_error (vech_indices (nrows (mat ps Sigma))) b = Some ijb ->
    (forall m n, nth_error (unfixed ps) m = Some (Sigma, ija) -> nth_error (unfixed ps) n = Some (Sigma, ijb) ->
       extract_sigma_vector_covariances ps cov a b = cov m n) /\
    (~ In (Sigma, ija) (unfixed ps) \/ ~ In (Sigma, ijb) (unfixed ps) -> extract_sigma_vector_covariances ps cov a b = 0%R).
  Proof. destruct accepted as [lo [up [I [_ S]]]]. exact (extract_spec _ _ _ _ _ I S cov a b ija ijb). Qed.
End Accepted.

(** Starting values outside of specified bounds. *)
Lemma initialize_rejects values shapes bv bounded nans k l u i j m : k <> Sigma \/ j <= i ->
  values k = Some m -> bv k = Some (l, u) -> i < nrows m -> j < ncols m ->
  fltb (entry m i j) (l i j) = true \/ fltb (u i j) (entry m i j) = true ->
  initialize values shapes bv bounded nans = None.
Proof.
  intros K V B Hi Hj O. destruct (initialize values shapes bv bounded nans) as [ps|] eqn:E; [exfalso|reflexivity].
  destruct (initialize_spec _ _ _ _ _ _ E) as [[lo [up [I Bd]]] [_ [_ [M Ms]]]].
  specialize (Bd k). rewrite B in Bd. unfold initialize_bounds in Bd.
  assert (H : nrows (mat ps k) = nrows m /\ ncols (mat ps k) = ncols m /\ entry (mat ps k) i j = entry m i j).
  { destruct (kind_eq_dec k Sigma) as [->|N]; [|rewrite (M _ _ V N); auto].
    assert (Hm : mat ps Sigma = matrices values shapes nans Sigma).
    { unfold initialize in E. cbv zeta in E. destruct (forallb _ kinds) in E; [|discriminate E].
      destruct (forallb _ kinds) in E; [|discriminate E]. unfold finish in E. cbv zeta in E.
      destruct (fold_left _ kinds _) as [[f u'] e'] in E. injection E as <-. reflexivity. }
    assert (Vs : exists v, validated values shapes nans Sigma = Some v).
    { unfold initialize in E. cbv zeta in E. destruct (forallb _ kinds) eqn:F in E; [|discriminate E].
      unfold kinds in F. cbn [forallb] in F. apply andb_true_iff in F. destruct F as [F _].
      destruct (validated values shapes nans Sigma) as [v|]; [exists v; reflexivity|discriminate F]. }
    destruct Vs as [v Vs]. assert (Vm := Vs). unfold validated in Vm. rewrite V in Vm. apply initialize_matrix_some in Vm. subst v.
    rewrite Hm. unfold matrices. rewrite Vs. cbn [from_some nrows ncols entry]. split; [reflexivity|]. split; [reflexivity|].
    destruct K as [K|K]; [contradiction|]. assert (Y : Nat.ltb i j = false) by (apply Nat.ltb_ge; exact K). rewrite Y. reflexivity. }
  destruct H as [R [C X]].
  assert (Sz : Nat.ltb 0 (nrows (mat ps k) * ncols (mat ps k)) = true) by (apply Nat.ltb_lt; rewrite R, C; nia).
  rewrite Sz in Bd. destruct (existsb _ _) eqn:Ex in Bd; [discriminate Bd|].
  assert (T : true = false); [|discriminate T]. rewrite <- Ex. symmetry. apply existsb_exists. exists (i, j).
  split; [apply ndindex_in; rewrite R, C; auto|]. cbn [fst snd]. rewrite X. apply orb_true_iff.
  destruct O as [O|O]; [left|right].
  - destruct (fnan (l i j)) eqn:N; [|exact O]. destruct (l i j); try discriminate N. destruct (entry m i j); discriminate O.
  - destruct (fnan (u i j)) eqn:N; [|exact O]. destruct (u i j); try discriminate N. discriminate O.
Qed.
