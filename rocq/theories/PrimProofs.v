(** Proofs about structured data. *)
From Coq Require Import Reals ZArith List Bool Arith Lia Lra Permutation Sorted.
From Verif Require Import Base FltModel ParamsProofs BasicsModel BasicsSpec BasicsProofs SchedProofs WelfareProofs
  PrimModel PrimSpec.
Import ListNotations.
Local Open Scope nat_scope.

(** ** Lag indices *)

Lemma feqb_num x r : feqb x (Num r) = true <-> x = Num r.
Proof. rewrite feqb_true. split; [tauto|]. intros ->. auto. Qed.

Lemma not_initial_in x l : forall k, In x (not_initial k l) <->
  exists i, i < List.length l /\ nth i l NaN = x /\ x <> Num (INR (k + i)).
Proof.
  induction l as [|y l IH]; intro k; cbn [not_initial].
  - split; [intros []|]. intros (i & H & _). cbn in H. lia.
  - assert (T : In x (not_initial (S k) l) <-> exists i, i < List.length (y :: l) /\ 0 < i /\
               nth i (y :: l) NaN = x /\ x <> Num (INR (k + i))).
    { rewrite IH. split.
      - intros (i & A & B & C). exists (S i). cbn [List.length nth]. repeat split; [lia|lia|exact B|].
        replace (k + S i) with (S k + i) by lia. exact C.
      - intros ([|i] & A & P & B & C); [lia|]. exists i. cbn [List.length nth] in *. repeat split; [lia|exact B|].
        replace (S k + i) with (k + S i) by lia. exact C. }
    destruct (feqb y (Num (INR k))) eqn:E.
    + rewrite T. apply feqb_num in E. split.
      * intros (i & A & _ & B). exists i. tauto.
      * intros ([|i] & A & B & C); [exfalso; cbn in B; rewrite Nat.add_0_r in C; congruence|].
        exists (S i). repeat split; try assumption. lia.
    + cbn [In]. rewrite T. split.
      * intros [->|(i & A & _ & B)]; [|exists i; tauto]. exists 0. cbn. rewrite Nat.add_0_r. repeat split; [lia|].
        intro N. rewrite N in E. assert (F : feqb (Num (INR k)) (Num (INR k)) = true) by (apply feqb_num; reflexivity). congruence.
      * intros ([|i] & A & B & C); [left; cbn in B; congruence|]. right. exists (S i). repeat split; try assumption. lia.
Qed.

Lemma not_initial_nodup l : forall k, NoDup (not_initial k l) <->
  forall i j, i < j < List.length l -> nth i l NaN <> Num (INR (k + i)) -> nth j l NaN <> Num (INR (k + j)) ->
    nth i l NaN <> nth j l NaN.
Proof.
  induction l as [|y l IH]; intro k; cbn [not_initial].
  - split; [|intros _; constructor]. intros _ i j H. cbn in H. lia.
  - assert (T : NoDup (not_initial (S k) l) <-> forall i j, i < j < List.length (y :: l) -> 0 < i ->
        nth i (y :: l) NaN <> Num (INR (k + i)) -> nth j (y :: l) NaN <> Num (INR (k + j)) ->
        nth i (y :: l) NaN <> nth j (y :: l) NaN).
    { rewrite IH. split.
      - intros H [|i] [|j] L P; try lia. cbn [nth List.length] in *.
        replace (k + S i) with (S k + i) by lia. replace (k + S j) with (S k + j) by lia. apply H. lia.
      - intros H i j L. assert (Q := H (S i) (S j)). cbn [nth List.length] in Q.
        replace (k + S i) with (S k + i) in Q by lia. replace (k + S j) with (S k + j) in Q by lia. apply Q; lia. }
    destruct (feqb y (Num (INR k))) eqn:E.
    + apply feqb_num in E. rewrite T. split.
      * intros H [|i] j L A B; [exfalso; apply A; cbn; rewrite Nat.add_0_r; exact E|]. apply H; [exact L|lia|exact A|exact B].
      * intros H i j L _. apply H. exact L.
    + assert (E' : y <> Num (INR k)) by (intro N; apply feqb_num in N; congruence).
      rewrite NoDup_cons_iff, T, not_initial_in. split.
      * intros [A B] [|i] j L C D; [|apply B; [exact L|lia|exact C|exact D]].
        destruct j as [|j]; [lia|]. cbn [nth List.length] in *. intro Q. apply A. exists j.
        repeat split; [lia|congruence|]. rewrite Q. replace (S k + j) with (k + S j) by lia. exact D.
      * intro H. split.
        -- intros (j & A & B & C). apply (H 0 (S j)); cbn [nth List.length].
           ++ lia.
           ++ rewrite Nat.add_0_r. exact E'.
           ++ rewrite B. replace (k + S j) with (S k + j) by lia. exact C.
           ++ congruence.
        -- intros i j L _. apply H. exact L.
Qed.

Lemma nodup_length l : List.length (nodup flt_eq_dec l) = List.length l <-> NoDup l.
Proof.
  split.
  - induction l as [|x l IH]; intro H; [constructor|]. cbn [nodup] in H.
    assert (B : List.length (nodup flt_eq_dec l) <= List.length l).
    { clear. induction l as [|x l IH]; cbn; [lia|]. destruct (in_dec flt_eq_dec x l); cbn; lia. }
    destruct (in_dec flt_eq_dec x l) as [I|I]; cbn [List.length] in H; [lia|].
    constructor; [exact I|apply IH; lia].
  - intro H. rewrite nodup_fixed_point by exact H. reflexivity.
Qed.

Lemma initial_exists l : forall k, existsb (fun b => b) (initial_mask k l) = true <->
  exists i, i < List.length l /\ nth i l NaN = Num (INR (k + i)).
Proof.
  induction l as [|x l IH]; intro k; cbn [initial_mask existsb].
  - split; [discriminate|]. intros (i & H & _). cbn in H. lia.
  - rewrite orb_true_iff, feqb_num, IH. split.
    + intros [->|(i & A & B)]; [exists 0; cbn; rewrite Nat.add_0_r; split; [lia|reflexivity]|].
      exists (S i). cbn [nth List.length]. replace (k + S i) with (S k + i) by lia. split; [lia|exact B].
    + intros ([|i] & A & B); [left; cbn in B; rewrite Nat.add_0_r in B; exact B|].
      right. exists i. cbn [nth List.length] in *. replace (S k + i) with (k + S i) by lia. split; [lia|exact B].
Qed.

Lemma fleb_nums a b : fleb (Num a) (Num b) = true <-> (a <= b)%R.
Proof.
  unfold fleb, fltb, feqb, rltb, reqb. rewrite orb_true_iff.
  destruct (Rlt_dec a b), (Req_EM_T a b); split; intro H; try lra; auto; destruct H; try discriminate; lra.
Qed.

Lemma shared_none lags : (forall i j, ~ shared_lag lags i j) <-> NoDup (not_initial 0 lags).
Proof.
  rewrite not_initial_nodup. unfold shared_lag. cbn [Nat.add]. split.
  - intros H i j L A B E. apply (H i j). repeat split; try assumption; lia.
  - intros H i j (A & B & N & C & D & E). destruct (Nat.lt_ge_cases i j).
    + apply (H i j); [lia|assumption|assumption|exact E].
    + apply (H j i); [lia|assumption|assumption|symmetry; exact E].
Qed.

Lemma whole_below lags : (forall x, In x lags -> exists z, x = Num (IZR z) /\ (z <= Z.of_nat (List.length lags) - 1)%Z) ->
  forallb (fun x => fleb x (Num (INR (List.length lags) - 1))) lags = true.
Proof.
  intro H. apply forallb_forall. intros x I. destruct (H x I) as (z & -> & L). apply fleb_nums.
  rewrite INR_IZR_INZ, <- minus_IZR. apply IZR_le. exact L.
Qed.

Lemma lags_whole lags out :
  (forall x, In x lags -> exists z, x = Num (IZR z) /\ (z <= Z.of_nat (List.length lags) - 1)%Z) ->
  load_lags lags = Some out -> valid_lags lags.
Proof.
  intros G H. unfold load_lags in H. rewrite (whole_below lags G), andb_true_r in H.
  destruct (forallb (fun x => fleb (Num 0) x) lags) eqn:P; cbn [negb] in H; [|discriminate].
  destruct (existsb (fun b => b) (initial_mask 0 lags)) eqn:X; cbn [negb] in H; [|discriminate].
  destruct (Nat.eqb_spec (List.length (nodup flt_eq_dec (not_initial 0 lags))) (List.length (not_initial 0 lags))) as [D|];
    cbn [negb] in H; [|discriminate].
  split; [|split].
  - intros x I. destruct (G x I) as (z & -> & L). rewrite forallb_forall in P. specialize (P _ I).
    apply fleb_nums in P. apply le_IZR in P. exists (Z.to_nat z). split; [lia|].
    rewrite INR_IZR_INZ, Z2Nat.id by exact P. reflexivity.
  - apply initial_exists in X. exact X.
  - apply shared_none, nodup_length, D.
Qed.

Lemma int_part_nat j : to_int64 (Num (INR j)) = Z.of_nat j.
Proof.
  cbn. destruct (Rle_dec 0 (INR j)) as [_|N]; [|exfalso; apply N, pos_INR].
  unfold Int_part. rewrite INR_IZR_INZ. rewrite <- (tech_up (IZR (Z.of_nat j)) (Z.of_nat j + 1)); [lia| |];
    rewrite plus_IZR; lra.
Qed.

Lemma lags_valid lags : valid_lags lags ->
  exists rows, load_lags lags = Some (map Z.of_nat rows) /\ lags = map (fun j => Num (INR j)) rows.
Proof.
  intros (A & B & C).
  assert (E : exists rows, lags = map (fun j => Num (INR j)) rows).
  { unfold row_numbers in A. revert A. generalize (List.length lags) as N. clear. intros N. induction lags as [|x l IH]; intro A; [exists []; reflexivity|].
    destruct IH as [rows E]; [intros y I; apply A; right; exact I|].
    destruct (A x (or_introl eq_refl)) as (j & _ & ->). exists (j :: rows). cbn. congruence. }
  destruct E as [rows E]. exists rows. split; [|exact E].
  unfold load_lags.
  assert (P : forallb (fun x => fleb (Num 0) x) lags = true).
  { apply forallb_forall. intros x I. destruct (A x I) as (j & _ & ->). apply fleb_nums, pos_INR. }
  rewrite P. cbn [negb andb].
  assert (X : existsb (fun b => b) (initial_mask 0 lags) = true) by (apply initial_exists; exact B).
  rewrite X. cbn [negb]. apply shared_none, nodup_length in C. rewrite C, Nat.eqb_refl. cbn [negb].
  rewrite E. rewrite map_map. f_equal. apply map_ext. intro j. apply int_part_nat.
Qed.

(** ** Shares *)

Lemma sum_rows_ext x y rows : (forall j, In j rows -> x j = y j) -> sum_rows x rows = sum_rows y rows.
Proof.
  unfold sum_rows. induction rows as [|j rows IH]; intro H; [reflexivity|]. cbn [fold_right].
  rewrite H by (left; reflexivity). rewrite IH; [reflexivity|]. intros k Hk. apply H. right. exact Hk.
Qed.

Lemma shares_spec ids p shares : is_argsort ids p -> List.length shares = List.length ids ->
  (load_shares ids p shares <> None <-> proper_shares ids shares) /\
  forall s, load_shares ids p shares = Some s -> shares = map Num s.
Proof.
  intros HP L. unfold load_shares.
  assert (FV : forallb ffin shares = true -> shares = map Num (map finite_part shares)).
  { intro F. clear L. induction shares as [|x l IH]; [reflexivity|]. cbn in F. apply andb_true_iff in F. destruct F as [Fx F].
    destruct x; try discriminate. cbn. f_equal. exact (IH F). }
  assert (FN : forall j, j < List.length ids -> nth j (map finite_part shares) 0%R = finite_part (nth j shares NaN)).
  { intros j Hj. rewrite (nth_indep _ 0%R (finite_part NaN)) by (rewrite map_length; lia). apply map_nth. }
  destruct (forallb ffin shares) eqn:F; cbn [negb].
  2:{ split; [|discriminate]. split; [intro H; exfalso; apply H; reflexivity|]. intros [A _]. exfalso.
      assert (T : forallb ffin shares = true); [|congruence]. apply forallb_forall. intros x I.
      destruct (A x I) as (s & -> & _). reflexivity. }
  specialize (FV eq_refl).
  destruct (existsb (fun x => fleb x (Num 0)) shares || existsb (fun x => fleb (Num 1) x) shares)%bool eqn:B.
  { split; [|discriminate]. split; [intro H; exfalso; apply H; reflexivity|]. intros [A _]. exfalso.
    apply orb_true_iff in B. destruct B as [B|B]; apply existsb_exists in B; destruct B as (x & I & Q);
      destruct (A x I) as (s & -> & U); apply fleb_nums in Q; lra. }
  apply orb_false_iff in B. destruct B as [B0 B1].
  assert (U : forall x, In x shares -> exists s, x = Num s /\ (0 < s < 1)%R).
  { intros x I. assert (FX := proj1 (forallb_forall ffin shares) F x I). destruct x as [s| | |]; try discriminate.
    exists s. split; [reflexivity|]. split.
    - apply Rnot_le_lt. intro Q. apply fleb_nums in Q.
      assert (existsb (fun x => fleb x (Num 0)) shares = true) by (apply existsb_exists; exists (Num s); auto). congruence.
    - apply Rnot_le_lt. intro Q. apply fleb_nums in Q.
      assert (existsb (fun x => fleb (Num 1) x) shares = true) by (apply existsb_exists; exists (Num s); auto). congruence. }
  set (s := map finite_part shares) in *.
  assert (GS : group_sum ids p (fun j => nth j s 0%R) =
               map (fun t => sum_rows (fun j => finite_part (nth j shares NaN)) (rows_of ids t)) (group_unique ids p)).
  { rewrite (group_sum_spec ids p HP). apply map_ext_in. intros t _. apply sum_rows_ext. intros j Hj.
    apply rows_of_in in Hj. apply FN. apply Hj. }
  destruct (group_unique_spec ids p HP) as [_ GU].
  destruct (existsb (fun total => fleb (Num 1) (Num total)) (group_sum ids p (fun j => nth j s 0%R))) eqn:E.
  - split; [|discriminate]. split; [intro H; exfalso; apply H; reflexivity|]. intros [_ A]. exfalso.
    apply existsb_exists in E. destruct E as (total & I & Q). rewrite GS in I. apply in_map_iff in I.
    destruct I as (t & <- & It). apply GU in It. specialize (A t It). apply fleb_nums in Q. lra.
  - split; [|intros s' Q; injection Q as <-; exact FV].
    split; [intros _|discriminate]. split; [exact U|].
    intros t It. apply Rlt_Rminus, Rnot_le_lt. intro Q. apply fleb_nums in Q.
    assert (existsb (fun total => fleb (Num 1) (Num total)) (group_sum ids p (fun j => nth j s 0%R)) = true); [|congruence].
    apply existsb_exists. rewrite GS. eexists. split; [apply in_map_iff; exists t; split; [reflexivity|]; apply GU; exact It|exact Q].
Qed.

(** ** Agents *)

Lemma filter_map {A B} (f : A -> B) (p : B -> bool) l : filter p (map f l) = map f (filter (fun x => p (f x)) l).
Proof. induction l as [|x l IH]; cbn; [reflexivity|]. rewrite IH. destruct (p (f x)); reflexivity. Qed.

Lemma rows_app a b t : rows_of (a ++ b) t = rows_of a t ++ map (Nat.add (List.length a)) (rows_of b t).
Proof.
  unfold rows_of. rewrite app_length, seq_app, filter_app. f_equal.
  - apply filter_ext_in. intros j Hj. apply in_seq in Hj. rewrite app_nth1 by lia. reflexivity.
  - assert (E : seq (0 + List.length a) (List.length b) = map (Nat.add (List.length a)) (seq 0 (List.length b))).
    { assert (G : forall m n k, seq (m + k) n = map (Nat.add m) (seq k n)).
      { clear. induction n as [|n IH]; intro k; cbn [seq map]; [reflexivity|]. f_equal. rewrite <- IH. f_equal. lia. }
      rewrite <- G. f_equal. lia. }
    rewrite E, filter_map. f_equal. apply filter_ext_in. intros j Hj. f_equal.
    rewrite app_nth2_plus. reflexivity.
Qed.

Lemma rows_repeat t u n : rows_of (repeat u n) t = if Z.eqb u t then seq 0 n else [].
Proof.
  unfold rows_of. rewrite repeat_length.
  assert (E : forall j, In j (seq 0 n) -> Z.eqb (nth j (repeat u n) 0%Z) t = Z.eqb u t).
  { intros j Hj. apply in_seq in Hj. f_equal.
    assert (G : forall n j, j < n -> nth j (repeat u n) 0%Z = u).
    { clear. induction n as [|n IH]; intros [|j] H; [lia|lia|reflexivity|]. cbn. apply IH. lia. }
    apply G. lia. }
  rewrite (filter_ext_in _ (fun _ => Z.eqb u t) _ E). destruct (Z.eqb u t).
  - generalize (seq 0 n). induction l as [|x l IH]; cbn; [reflexivity|]. rewrite IH. reflexivity.
  - generalize (seq 0 n). induction l as [|x l IH]; cbn; [reflexivity|]. exact IH.
Qed.

Lemma rows_absent ids t : ~ In t ids -> rows_of ids t = [].
Proof.
  intro H. destruct (rows_of ids t) as [|j l] eqn:E; [reflexivity|]. exfalso. apply H.
  assert (I : In j (rows_of ids t)) by (rewrite E; left; reflexivity). apply rows_of_in in I. destruct I as [I <-].
  apply nth_In. exact I.
Qed.

Lemma rows_length_le ids t r : r < List.length (rows_of ids t) -> In t ids.
Proof.
  intro H. destruct (in_dec Z.eq_dec t ids) as [I|N]; [exact I|]. rewrite (rows_absent ids t N) in H. cbn in H. lia.
Qed.

Section Blocks.
  Context {X : Type} (n : Z -> nat) (g : Z -> list X).
  Definition blocks (markets : list Z) : list Z := flat_map (fun t => repeat t (n t)) markets.

  Lemma blocks_in t markets : In t (blocks markets) -> In t markets.
  Proof.
    unfold blocks. rewrite in_flat_map. intros (u & I & J). apply repeat_spec in J. congruence.
  Qed.

  Lemma blocks_rows markets t : NoDup markets -> In t markets -> List.length (rows_of (blocks markets) t) = n t.
  Proof.
    induction markets as [|u ms IH]; intros ND I; [destruct I|]. inversion ND as [|? ? N ND']; subst.
    cbn [blocks flat_map]. fold (blocks ms). rewrite rows_app, rows_repeat, app_length, map_length.
    destruct (Z.eqb_spec u t) as [->|NE].
    - rewrite seq_length, (rows_absent (blocks ms)); [cbn; lia|]. intro J. apply N. apply blocks_in, J.
    - destruct I as [|I]; [contradiction|]. cbn. apply IH; assumption.
  Qed.

  Lemma blocks_nth markets t r x : (forall u, In u markets -> List.length (g u) = n u) ->
    NoDup markets -> In t markets -> r < n t ->
    nth (nth r (rows_of (blocks markets) t) 0) (flat_map g markets) x = nth r (g t) x.
  Proof.
    induction markets as [|u ms IH]; intros size ND I L; [destruct I|]. inversion ND as [|? ? N ND']; subst.
    cbn [blocks flat_map]. fold (blocks ms). rewrite rows_app, rows_repeat.
    assert (size' := size u (or_introl eq_refl)).
    destruct (Z.eqb_spec u t) as [->|NE].
    - rewrite (app_nth1 (seq 0 (n t))) by (rewrite seq_length; exact L). rewrite seq_nth by exact L. cbn [Nat.add].
      rewrite app_nth1 by (rewrite size'; exact L). reflexivity.
    - destruct I as [|I]; [contradiction|]. cbn [app].
      assert (B := blocks_rows ms t ND' I).
      rewrite (nth_indep _ 0 (List.length (repeat u (n u)) + 0)) by (rewrite map_length; lia).
      rewrite map_nth, repeat_length. rewrite app_nth2 by (rewrite size'; lia).
      rewrite size'. replace (n u + nth r (rows_of (blocks ms) t) 0 - n u) with (nth r (rows_of (blocks ms) t) 0) by lia.
      apply IH; try assumption. intros v Iv. apply size. right. exact Iv.
  Qed.

  Lemma blocks_length markets : (forall u, In u markets -> List.length (g u) = n u) ->
    List.length (flat_map g markets) = List.length (blocks markets).
  Proof.
    induction markets as [|u ms IH]; intro size; cbn [blocks flat_map]; [reflexivity|]. fold (blocks ms).
    rewrite !app_length, repeat_length, (size u (or_introl eq_refl)), IH; [reflexivity|].
    intros v Iv. apply size. right. exact Iv.
  Qed.
End Blocks.

Lemma flat_map_ext_in {A B} (f g : A -> list B) l : (forall x, In x l -> f x = g x) -> flat_map f l = flat_map g l.
Proof.
  induction l as [|x l IH]; intro H; [reflexivity|]. cbn. rewrite H by (left; reflexivity). f_equal.
  apply IH. intros y Hy. apply H. right. exact Hy.
Qed.

Lemma count_rows t ids : count_of t ids = List.length (rows_of ids t).
Proof.
  unfold count_of. induction ids as [|u ids IH]; [reflexivity|].
  change (u :: ids) with ([u] ++ ids) at 2. rewrite rows_app, app_length, map_length, <- IH.
  change [u] with (repeat u 1). rewrite rows_repeat, (Z.eqb_sym u t). cbn [filter]. destruct (Z.eqb t u); cbn; lia.
Qed.

Lemma select_rows {X} t ids (l : list X) x : List.length l = List.length ids ->
  select t ids l = map (fun j => nth j l x) (rows_of ids t).
Proof.
  unfold select. revert l. induction ids as [|u ids IH]; intros l L.
  - destruct l; [|discriminate]. reflexivity.
  - destruct l as [|y l]; [discriminate|]. injection L as L. cbn [combine filter fst].
    change (u :: ids) with ([u] ++ ids). rewrite rows_app, map_app, map_map.
    assert (R : rows_of [u] t = if Z.eqb u t then [0] else []) by (change [u] with (repeat u 1); apply rows_repeat).
    rewrite R. destruct (Z.eqb u t); cbn [map snd app nth]; rewrite (IH l L); reflexivity.
Qed.

Lemma unique_same a b : (forall t, In t a <-> In t b) -> np_unique a = np_unique b.
Proof.
  intro H. assert (G : forall u v, increasing u -> increasing v -> (forall t, In t u <-> In t v) -> u = v).
  { clear. intros u v I. revert v. induction I as [|x u Hx Iu IH]; intros v J E.
    - destruct v as [|y v]; [reflexivity|]. exfalso. apply (E y). left. reflexivity.
    - destruct v as [|y v]; [exfalso; apply (E x); left; reflexivity|].
      inversion J as [|? ? Hy Jv]; subst.
      assert (Q : x = y).
      { destruct (proj1 (E x) (or_introl eq_refl)) as [|A]; [congruence|].
        destruct (proj2 (E y) (or_introl eq_refl)) as [|B]; [congruence|].
        specialize (Hx _ B). specialize (Hy _ A). lia. }
      subst y. f_equal. apply IH; [exact Jv|]. intro t. split; intro T.
      + destruct (proj1 (E t) (or_intror T)) as [<-|A]; [|exact A]. specialize (Hx _ T). lia.
      + destruct (proj2 (E t) (or_intror T)) as [<-|A]; [|exact A]. specialize (Hy _ T). lia. }
  apply G; [apply np_unique_increasing|apply np_unique_increasing|]. intro t. rewrite !np_unique_in. apply H.
Qed.

Lemma same_markets_spec a b : same_markets a b = true <-> forall t, In t a <-> In t b.
Proof.
  unfold same_markets. destruct (list_eq_dec Z.eq_dec (np_unique a) (np_unique b)) as [E|E].
  - split; [intros _ t|reflexivity]. rewrite <- (np_unique_in t a), <- (np_unique_in t b), E. reflexivity.
  - split; [discriminate|]. intro H. exfalso. apply E, unique_same, H.
Qed.

Lemma fill_some {X} size (l : list X) o : fill size (Some l) = Some o ->
  exists l', o = Some l' /\ List.length l' = size /\
    (l' = l \/ exists x, l = [x] /\ l' = repeat x size).
Proof.
  unfold fill. destruct (Nat.eqb_spec (List.length l) size) as [E|E].
  - intro H. injection H as <-. exists l. auto.
  - destruct l as [|x [|y l]]; try discriminate. intro H. injection H as <-. exists (repeat x size).
    rewrite repeat_length. split; [reflexivity|]. split; [reflexivity|]. right. exists x. auto.
Qed.

Lemma truncate_spec {D} built loaded (d : list D) markets l :
  truncate_demographics built loaded d markets = Some l ->
  l = flat_map (fun t => firstn (count_of t built) (select t loaded d)) markets /\
  forall t, In t markets -> count_of t built <= count_of t loaded.
Proof.
  revert l. induction markets as [|t ms IH]; intros l H; cbn [truncate_demographics] in H.
  - injection H as <-. split; [reflexivity|]. intros t [].
  - destruct (Nat.ltb_spec (count_of t loaded) (count_of t built)) as [L|L]; [discriminate|].
    destruct (truncate_demographics built loaded d ms) as [l'|]; [|discriminate]. cbn in H. injection H as <-.
    destruct (IH l' eq_refl) as [-> B]. split; [reflexivity|]. intros u [<-|I]; [exact L|exact (B u I)].
Qed.

Lemma select_length {X} t ids (l : list X) : List.length l = List.length ids ->
  List.length (select t ids l) = count_of t ids.
Proof.
  intro L. rewrite count_rows. destruct l as [|x l].
  - destruct ids; [reflexivity|discriminate].
  - rewrite (select_rows t ids (x :: l) x L), map_length. reflexivity.
Qed.

Lemma select_nth {X} t ids (l : list X) r x : List.length l = List.length ids -> r < List.length (rows_of ids t) ->
  nth r (select t ids l) x = nth (nth r (rows_of ids t) 0) l x.
Proof.
  intros L H. rewrite (select_rows t ids l x L).
  rewrite (nth_indep _ x (nth 0 l x)) by (rewrite map_length; exact H).
  rewrite (map_nth (fun j => nth j l x)). reflexivity.
Qed.

Lemma nth_firstn {X} (l : list X) r k x : r < k -> nth r (firstn k l) x = nth r l x.
Proof.
  revert r l. induction k as [|k IH]; intros r l H; [lia|]. destruct l as [|y l]; [reflexivity|].
  destruct r as [|r]; [reflexivity|]. cbn. apply IH. lia.
Qed.

Section Integrated.
  Context {I D A N : Type} (product_markets : list Z) (data : agent_data I D A N) (block : Z -> list N).
  Variable out : agents I D A N.
  Hypothesis R : rectangular data.
  Hypothesis nonempty : forall t, In t product_markets -> block t <> [].
  Hypothesis accepted : agents_integrated product_markets data block = Some out.
  Let markets := np_unique product_markets.
  Let n := fun t => List.length (block t).
  Let built := blocks n markets.

  Lemma markets_nodup : NoDup markets.
  Proof. apply unique_nodup. Qed.

  Lemma built_in t : In t built <-> In t markets.
  Proof.
    split; [apply blocks_in|]. intro H. unfold built, blocks. apply in_flat_map. exists t. split; [exact H|].
    assert (NE := nonempty t (proj1 (np_unique_in t product_markets) H)). unfold n. destruct (block t); [contradiction|].
    left. reflexivity.
  Qed.

  Lemma built_unique : np_unique built = markets.
  Proof. apply unique_same. intro t. rewrite built_in. apply np_unique_in. Qed.

  Lemma loaded_in t : In t (loaded_markets data) <-> In t markets.
  Proof.
    unfold agents_integrated in accepted. destruct (same_markets product_markets (loaded_markets data)) eqn:E; [|discriminate].
    apply same_markets_spec with (t := t) in E. unfold markets. rewrite np_unique_in. tauto.
  Qed.

  Lemma built_count t : In t markets -> List.length (rows_of built t) = n t.
  Proof. intro H. apply blocks_rows; [apply markets_nodup|exact H]. Qed.

  (** What acceptance means. *)
  Lemma accepted_parts : exists nodes d,
    agent_markets out = built /\
    fill (List.length built) (Some (flat_map block markets)) = Some (Some nodes) /\ agent_nodes out = nodes /\
    fill (List.length built) (loaded_ids data) = Some (agent_ids out) /\
    fill (List.length built) d = Some (agent_demographics out) /\
    fill (List.length built) (loaded_availability data) = Some (agent_availability out) /\
    match loaded_demographics data with
    | None => d = None
    | Some l => d = Some (flat_map (fun t => firstn (n t) (select t (loaded_markets data) l)) markets) /\
                forall t, In t markets -> n t <= List.length (rows_of (loaded_markets data) t)
    end.
  Proof.
    unfold agents_integrated in accepted. destruct (same_markets product_markets (loaded_markets data)); [|discriminate].
    cbn [negb] in accepted. fold markets in accepted.
    change (flat_map (fun t => repeat t (List.length (block t))) markets) with built in accepted.
    rewrite built_unique in accepted.
    set (d := match loaded_demographics data with
              | None => Some None
              | Some d => option_map Some (truncate_demographics built (loaded_markets data) d markets)
              end) in *.
    destruct d as [d'|] eqn:E; [|discriminate]. unfold structure_agents in accepted.
    destruct (fill (List.length built) (Some (flat_map block markets))) as [[nodes|]|] eqn:FN; try discriminate.
    destruct (fill (List.length built) (loaded_ids data)) as [i|] eqn:FI; [|discriminate].
    destruct (fill (List.length built) d') as [dd|] eqn:FD; [|discriminate].
    destruct (fill (List.length built) (loaded_availability data)) as [a|] eqn:FA; [|discriminate].
    injection accepted as <-. exists nodes, d'. cbn [agent_markets agent_nodes agent_ids agent_demographics agent_availability].
    split; [reflexivity|]. split; [reflexivity|]. split; [reflexivity|]. split; [reflexivity|]. split; [exact FD|]. split; [reflexivity|].
    unfold d in E. destruct (loaded_demographics data) as [l|]; [|congruence].
    destruct (truncate_demographics built (loaded_markets data) l markets) as [l'|] eqn:T; [|discriminate].
    cbn in E. injection E as <-. apply truncate_spec in T. destruct T as [-> B].
    split.
    - f_equal. apply flat_map_ext_in. intros t It. rewrite count_rows, (built_count t It). reflexivity.
    - intros t It. specialize (B t It). rewrite !count_rows, (built_count t It) in B. exact B.
  Qed.

  Lemma nodes_ok : nodes_in_order out block.
  Proof.
    destruct accepted_parts as (nodes & d & M & FN & EN & _). apply fill_some in FN.
    destruct FN as (l' & E & L & C). injection E as <-.
    assert (LL := blocks_length n block markets (fun t _ => eq_refl)). fold built in LL.
    assert (Q : nodes = flat_map block markets).
    { destruct C as [C|(x & Cx & C)]; [exact C|]. rewrite Cx in LL. cbn in LL. rewrite <- LL in C. rewrite C, Cx. reflexivity. }
    split; [rewrite EN, M; exact L|]. rewrite M, EN, Q. intros t r x H.
    assert (It : In t markets) by (apply built_in; eapply rows_length_le; exact H).
    rewrite (built_count t It) in H. apply (blocks_nth n block); [reflexivity|apply markets_nodup|exact It|exact H].
  Qed.

  Lemma demographics_ok : field_aligned (loaded_markets data) (agent_markets out) (loaded_demographics data) (agent_demographics out).
  Proof.
    destruct accepted_parts as (nodes & d & M & _ & _ & _ & FD & _ & DD). destruct R as (_ & RD & _).
    destruct (loaded_demographics data) as [l|].
    2:{ subst d. cbn in FD. injection FD as <-. exact Logic.I. }
    destruct DD as [-> B]. specialize (RD l eq_refl).
    set (g := fun t => firstn (n t) (select t (loaded_markets data) l)) in *.
    assert (size : forall u, In u markets -> List.length (g u) = n u).
    { intros u Iu. unfold g. rewrite firstn_length, (select_length u _ l RD), count_rows. specialize (B u Iu). lia. }
    assert (LL := blocks_length n g markets size). fold built in LL.
    apply fill_some in FD. destruct FD as (l' & E & L & C). rewrite E, M.
    assert (Q : l' = flat_map g markets).
    { destruct C as [C|(x & Cx & C)]; [exact C|]. rewrite Cx in LL. cbn in LL. rewrite <- LL in C. rewrite C, Cx. reflexivity. }
    split; [exact L|]. intros t r x H.
    assert (It : In t markets) by (apply built_in; eapply rows_length_le; exact H).
    rewrite (built_count t It) in H. assert (H' : r < List.length (rows_of (loaded_markets data) t)) by (specialize (B t It); lia).
    split; [exact H'|]. rewrite Q. unfold built. rewrite (blocks_nth n g markets t r x size markets_nodup It H).
    unfold g. rewrite nth_firstn by exact H. apply select_nth; [exact RD|exact H'].
  Qed.

  (** When the data are in the order of the markets and have the right numbers of rows. *)
  Lemma ids_aligned {X} (from : option (list X)) to : loaded_markets data = built ->
    (forall l, from = Some l -> List.length l = List.length (loaded_markets data)) ->
    fill (List.length built) from = Some to -> field_aligned (loaded_markets data) (agent_markets out) from to.
  Proof.
    intros E L F. destruct accepted_parts as (nodes & d & M & _). rewrite M, E.
    destruct from as [l|]; [|cbn in F; injection F as <-; exact Logic.I].
    specialize (L l eq_refl). rewrite E in L. unfold fill in F. rewrite L, Nat.eqb_refl in F. injection F as <-.
    split; [exact L|]. intros t r x H. split; [exact H|reflexivity].
  Qed.

  Lemma sorted_equal (a b : list Z) : StronglySorted Z.le a -> StronglySorted Z.le b ->
    Permutation a b -> a = b.
  Proof.
    revert b. induction a as [|x a IH]; intros b SA SB P.
    - apply Permutation_nil in P. congruence.
    - destruct b as [|y b]; [apply Permutation_sym, Permutation_nil in P; discriminate|].
      inversion SA as [|? ? SA' FA]; subst. inversion SB as [|? ? SB' FB]; subst.
      rewrite Forall_forall in FA, FB.
      assert (E : x = y).
      { assert (Hx : In x (y :: b)) by (eapply Permutation_in; [exact P|left; reflexivity]).
        assert (Hy : In y (x :: a)) by (eapply Permutation_in; [exact (Permutation_sym P)|left; reflexivity]).
        destruct Hx as [|Hx]; [congruence|]. destruct Hy as [|Hy]; [congruence|].
        specialize (FA _ Hy). specialize (FB _ Hx). lia. }
      subst y. f_equal. apply IH; try assumption. eapply Permutation_cons_inv; exact P.
  Qed.

  Lemma grouped_sorted l : grouped_by_market l -> StronglySorted Z.le l.
  Proof.
    induction l as [|x l IH]; intro G; constructor.
    - apply IH. intros i j H. specialize (G (S i) (S j)). cbn [nth List.length] in G. apply G. lia.
    - apply Forall_forall. intros y Hy. apply In_nth with (d := 0%Z) in Hy. destruct Hy as (j & Hj & <-).
      specialize (G 0 (S j)). cbn [nth List.length] in G. apply G. lia.
  Qed.

  Lemma count_occ_rows l t : count_occ Z.eq_dec l t = List.length (rows_of l t).
  Proof.
    rewrite <- count_rows. unfold count_of. induction l as [|u l IH]; [reflexivity|]. cbn [count_occ filter].
    destruct (Z.eq_dec u t) as [->|NE]; [rewrite Z.eqb_refl; cbn; congruence|].
    destruct (Z.eqb_spec t u); [congruence|exact IH].
  Qed.

  Lemma built_sorted : StronglySorted Z.le built.
  Proof.
    unfold built. assert (J := np_unique_increasing product_markets). fold markets in J. clearbody markets. clear accepted.
    induction J as [|t ms Ht Jm IH]; [constructor|]. cbn [blocks flat_map]. fold (blocks n ms).
    induction (n t) as [|k IHk]; [exact IH|]. cbn [repeat app]. constructor; [exact IHk|].
    apply Forall_forall. intros y Hy. apply in_app_iff in Hy. destruct Hy as [Hy|Hy].
    - apply repeat_spec in Hy. lia.
    - apply blocks_in in Hy. specialize (Ht y Hy). lia.
  Qed.

  Lemma loaded_equal : grouped_by_market (loaded_markets data) ->
    (forall t, In t markets -> List.length (rows_of (loaded_markets data) t) = n t) ->
    loaded_markets data = built.
  Proof.
    intros G C. apply sorted_equal; [apply grouped_sorted, G|apply built_sorted|].
    apply (proj2 (Permutation_count_occ Z.eq_dec _ _)). intro t. rewrite !count_occ_rows.
    destruct (in_dec Z.eq_dec t markets) as [It|Nt].
    - rewrite (C t It), (built_count t It). reflexivity.
    - rewrite (rows_absent built t), (rows_absent (loaded_markets data) t); [reflexivity| |].
      + intro H. apply Nt, loaded_in, H.
      + intro H. apply Nt, built_in, H.
  Qed.

  Lemma total_rows l : (forall t, In t l <-> In t markets) ->
    List.length l = fold_right (fun t acc => List.length (rows_of l t) + acc) 0 markets.
  Proof.
    intro H. assert (S : sorted_distinct l markets).
    { split; [|intro t; symmetry; apply H]. assert (J := np_unique_increasing product_markets). fold markets in J.
      clear -J. induction J as [|x u Hx _ IH]; constructor; [exact IH|]. apply Forall_forall. exact Hx. }
    assert (P := Permutation_length (rows_partition l markets S)). rewrite seq_length in P. rewrite <- P. clear.
    induction markets as [|t ms IH]; cbn; [reflexivity|]. rewrite app_length, IH. reflexivity.
  Qed.

  (** With demographics, an agent ID or availability that fits leaves no room for unequal sizes. *)
  Lemma sizes_forced l : loaded_demographics data = Some l ->
    List.length (loaded_markets data) = List.length built ->
    forall t, In t markets -> List.length (rows_of (loaded_markets data) t) = n t.
  Proof.
    intros HD E. destruct accepted_parts as (nodes & d & _ & _ & _ & _ & _ & _ & DD). rewrite HD in DD. destruct DD as [_ B].
    rewrite (total_rows (loaded_markets data) loaded_in), (total_rows built built_in) in E.
    assert (F : forall t, In t markets -> List.length (rows_of built t) <= List.length (rows_of (loaded_markets data) t))
      by (intros t It; rewrite (built_count t It); exact (B t It)).
    intros t It. rewrite <- (built_count t It).
    revert t It F E. generalize markets. clear. intro ms. induction ms as [|u ms IH]; intros t It F E; [destruct It|].
    cbn [fold_right] in E.
    assert (Fu := F u (or_introl eq_refl)).
    assert (Fm : fold_right (fun t acc => List.length (rows_of built t) + acc) 0 ms
                 <= fold_right (fun t acc => List.length (rows_of (loaded_markets data) t) + acc) 0 ms).
    { assert (F' : forall t, In t ms -> List.length (rows_of built t) <= List.length (rows_of (loaded_markets data) t))
        by (intros v Iv; apply F; right; exact Iv).
      clear -F'. induction ms as [|v ms IH]; cbn; [lia|].
      assert (A0 := F' v (or_introl eq_refl)). assert (B0 := IH (fun w Iw => F' w (or_intror Iw))). lia. }
    destruct It as [<-|It]; [lia|]. apply IH; [exact It|intros v Iv; apply F; right; exact Iv|lia].
  Qed.

  Lemma aligned_columns : grouped_by_market (loaded_markets data) ->
    (loaded_ids data <> None \/ loaded_availability data <> None) ->
    (loaded_demographics data <> None \/ same_sizes (loaded_markets data) block) ->
    loaded_markets data = built.
  Proof.
    intros G C1 C2. apply loaded_equal; [exact G|].
    destruct C2 as [C2|C2].
    2:{ intros t It. apply C2. apply loaded_in, It. }
    destruct (loaded_demographics data) as [l|] eqn:HD; [|contradiction C2; reflexivity].
    destruct accepted_parts as (nodes & d & _ & _ & _ & FI & _ & FA & DD). rewrite HD in DD. destruct DD as [_ B].
    destruct R as (RI & _ & RA & _).
    assert (K : forall X (from : option (list X)) to, from <> None ->
              (forall l, from = Some l -> List.length l = List.length (loaded_markets data)) ->
              fill (List.length built) from = Some to -> List.length (loaded_markets data) = List.length built).
    { intros X from to NE L F. destruct from as [c|]; [|contradiction NE; reflexivity].
      specialize (L c eq_refl). unfold fill in F. destruct (Nat.eqb_spec (List.length c) (List.length built)) as [Q|Q]; [congruence|].
      destruct c as [|x [|y c]]; try discriminate. cbn in L.
      (* one row of data: one market of one row *)
      assert (POS : 0 < List.length built).
      { destruct (loaded_markets data) as [|t ms] eqn:EM; [discriminate|].
        assert (It : In t built) by (apply built_in, loaded_in; rewrite EM; left; reflexivity).
        destruct built; [destruct It|cbn; lia]. }
      assert (T1 := total_rows (loaded_markets data) loaded_in). assert (T2 := total_rows built built_in).
      assert (LE : fold_right (fun t acc => List.length (rows_of built t) + acc) 0 markets
                   <= fold_right (fun t acc => List.length (rows_of (loaded_markets data) t) + acc) 0 markets).
      { assert (F' : forall t, In t markets -> List.length (rows_of built t) <= List.length (rows_of (loaded_markets data) t))
          by (intros v Iv; rewrite (built_count v Iv); exact (B v Iv)).
        clear -F'. revert F'. generalize markets. intro ms. induction ms as [|v ms IH]; intro F'; cbn; [lia|].
        assert (A0 := F' v (or_introl eq_refl)). assert (B0 := IH (fun w Iw => F' w (or_intror Iw))). lia. }
      lia. }
    apply (sizes_forced l HD). destruct C1 as [C1|C1].
    - exact (K _ _ _ C1 RI FI).
    - exact (K _ _ _ C1 RA FA).
  Qed.

  Lemma integrated_aligned : grouped_by_market (loaded_markets data) ->
    (loaded_demographics data <> None \/ same_sizes (loaded_markets data) block) -> aligned data out.
  Proof.
    intros G C. assert (DO := demographics_ok).
    destruct accepted_parts as (nodes & d & M & _ & _ & FI & _ & FA & _). destruct R as (RI & _ & RA & _).
    assert (K : forall X (from : option (list X)) to,
              (from <> None -> loaded_ids data <> None \/ loaded_availability data <> None) ->
              (forall l, from = Some l -> List.length l = List.length (loaded_markets data)) ->
              fill (List.length built) from = Some to ->
              field_aligned (loaded_markets data) (agent_markets out) from to).
    { intros X from to W L F. destruct from as [c|]; [|cbn in F; injection F as <-; exact Logic.I].
      apply ids_aligned; [apply aligned_columns; [exact G|apply W; discriminate|exact C]|exact L|exact F]. }
    split; [apply K; [auto|exact RI|exact FI]|]. split; [exact DO|]. apply K; [auto|exact RA|exact FA].
  Qed.
End Integrated.

Lemma loaded_aligned {I D A N} product_markets (data : agent_data I D A N) out : rectangular data ->
  agents_loaded product_markets data = Some out ->
  aligned data out /\ agent_markets out = loaded_markets data /\ loaded_nodes data = Some (agent_nodes out).
Proof.
  intros (RI & RD & RA & RN) H. unfold agents_loaded in H. destruct (same_markets product_markets (loaded_markets data)); [|discriminate].
  cbn [negb] in H. destruct (loaded_nodes data) as [nodes|] eqn:EN; [|discriminate]. unfold structure_agents in H.
  assert (K : forall X (from : option (list X)), (forall l, from = Some l -> List.length l = List.length (loaded_markets data)) ->
            fill (List.length (loaded_markets data)) from = Some from).
  { intros X [l|] L; [|reflexivity]. unfold fill. rewrite (L l eq_refl), Nat.eqb_refl. reflexivity. }
  rewrite (K _ (Some nodes)) in H by (intros l E; apply RN; exact E).
  rewrite (K _ _ RI), (K _ _ RD), (K _ _ RA) in H. injection H as <-. cbn.
  split; [|split; reflexivity]. unfold aligned. cbn.
  assert (Q : forall X (from : option (list X)), (forall l, from = Some l -> List.length l = List.length (loaded_markets data)) ->
            field_aligned (loaded_markets data) (loaded_markets data) from from).
  { intros X [l|] L; [|exact Logic.I]. split; [exact (L l eq_refl)|]. intros t r x Hr. split; [exact Hr|reflexivity]. }
  repeat split; apply Q; assumption.
Qed.

(** ** Micro agents *)

Lemma repeat_map {A B} (f : A -> B) x k : map f (repeat x k) = repeat (f x) k.
Proof. induction k as [|k IH]; cbn; [reflexivity|]. rewrite IH. reflexivity. Qed.

Lemma map_flat_map {A B C} (f : B -> C) (g : A -> list B) l : map f (flat_map g l) = flat_map (fun x => map f (g x)) l.
Proof. induction l as [|x l IH]; cbn; [reflexivity|]. rewrite map_app, IH. reflexivity. Qed.

Lemma filter_repeat v u k : filter (Nat.eqb v) (repeat u k) = if Nat.eqb v u then repeat u k else [].
Proof.
  induction k as [|k IH]; cbn; [destruct (Nat.eqb v u); reflexivity|]. rewrite IH. destruct (Nat.eqb v u); reflexivity.
Qed.

Lemma filter_built {N} (block : nat -> list N) v l : NoDup l ->
  List.length (filter (Nat.eqb v) (flat_map (fun n => repeat n (List.length (block n))) l))
  = if in_dec Nat.eq_dec v l then List.length (block v) else 0.
Proof.
  induction l as [|u l IH]; intro ND; [reflexivity|]. inversion ND as [|? ? NI ND']; subst. cbn [flat_map].
  rewrite filter_app, app_length, filter_repeat, (IH ND').
  destruct (Nat.eqb_spec v u) as [->|NE].
  - rewrite repeat_length. destruct (in_dec Nat.eq_dec u l); [contradiction|].
    destruct (in_dec Nat.eq_dec u (u :: l)) as [_|X]; [lia|exfalso; apply X; left; reflexivity].
  - destruct (in_dec Nat.eq_dec v l) as [Y|Y]; destruct (in_dec Nat.eq_dec v (u :: l)) as [[Z|Z]|Z]; cbn; try congruence; try contradiction.
    exfalso. apply Z. right. exact Y.
Qed.

Lemma built_max {N} (block : nat -> list N) count : 0 < count -> (forall n, n < count -> block n <> []) ->
  list_max (micro_ids_built count block) = count - 1.
Proof.
  intros P NE. apply Nat.le_antisymm.
  - apply list_max_le, Forall_forall. intros v Hv. unfold micro_ids_built in Hv. apply in_flat_map in Hv.
    destruct Hv as (n & Hn & Hr). apply repeat_spec in Hr. apply in_seq in Hn. lia.
  - assert (I : In (count - 1) (micro_ids_built count block)).
    { unfold micro_ids_built. apply in_flat_map. exists (count - 1). split; [apply in_seq; lia|].
      specialize (NE (count - 1) ltac:(lia)). destruct (block (count - 1)); [contradiction|]. left. reflexivity. }
    assert (F := proj1 (list_max_le (micro_ids_built count block) _) (le_n _)). rewrite Forall_forall in F. apply F, I.
Qed.

Lemma bincount_built {N} (block : nat -> list N) count : 0 < count -> (forall n, n < count -> block n <> []) ->
  bincount (micro_ids_built count block) = map (fun n => List.length (block n)) (seq 0 count).
Proof.
  intros P NE. unfold bincount. rewrite built_max by assumption. replace (S (count - 1)) with count by lia.
  apply map_ext_in. intros v Hv. unfold micro_ids_built. rewrite filter_built by apply seq_NoDup.
  destruct (in_dec Nat.eq_dec v (seq 0 count)); [reflexivity|contradiction].
Qed.

Lemma duplicate_spec {N X} (block : nat -> list N) (field : list X) x :
  0 < List.length field -> (forall n, n < List.length field -> block n <> []) ->
  micro_duplicate (List.length field) block field
  = map (fun n => nth n field x) (micro_ids_built (List.length field) block).
Proof.
  intros P NE. unfold micro_duplicate. rewrite bincount_built by assumption. unfold micro_ids_built, np_repeat.
  rewrite map_flat_map. clear P NE.
  assert (G : forall l k, flat_map (fun r => repeat (fst r) (snd r)) (combine l (map (fun n => List.length (block n)) (seq k (List.length l))))
            = flat_map (fun n => map (fun m => nth (m - k) l x) (repeat n (List.length (block n)))) (seq k (List.length l))).
  { clear. induction l as [|y l IH]; intro k; [reflexivity|]. cbn [List.length seq map combine flat_map fst snd].
    rewrite (repeat_map (fun m => nth (m - k) (y :: l) x)), Nat.sub_diag. cbn [nth]. f_equal. rewrite IH.
    apply flat_map_ext_in. intros n Hn. apply in_seq in Hn. apply map_ext_in. intros m Hm. apply repeat_spec in Hm. subst m.
    replace (n - k) with (S (n - S k)) by lia. reflexivity. }
  rewrite (G field 0). apply flat_map_ext_in. intros n _. apply map_ext. intro m. rewrite Nat.sub_0_r. reflexivity.
Qed.

Lemma sort_check_vacuous ids : sorted_check (map (fun i => [i]) ids) = true.
Proof.
  unfold sorted_check. apply forallb_forall. intros row H. apply in_map_iff in H. destruct H as (i & <- & _).
  destruct (list_eq_dec Z.eq_dec [i] (np_unique [i])) as [_|N]; [reflexivity|]. exfalso. apply N. reflexivity.
Qed.
