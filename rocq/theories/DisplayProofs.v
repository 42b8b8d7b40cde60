(** Proofs about displayed progress. *)
From Coq Require Import Ascii String Reals ZArith List Arith Bool Lia Lra.
From Flocq Require Import Core.
From Verif Require Import FltModel TableModel TableSpec TableProofs FormatModel FormatSpec FormatProofs ProgressModel ProgressProofs DisplayModel DisplaySpec.
Import ListNotations.

(* ---------- Improvements ---------- *)

Fixpoint running (s : flt) (l : list flt) : list (flt * flt) :=
  match l with [] => [] | o :: l' => (o, s) :: running (if fltb o s then o else s) l' end.

Lemma displayed_running {Theta} (c : computation Theta) cfg l : forall h p smallest h' recs,
  evaluations c cfg h p l = (h', recs) -> objective p < length h -> (forall n, smallest = Some n -> n < length h) ->
  (on_error cfg <> Revert \/ forall v q, In (v, q) recs -> ~ In ObjectiveReversion (errors q)) ->
  displayed c cfg h p smallest l = running (smallest_value h smallest) (map fst recs).
Proof.
  induction l as [|[theta cg] l IH]; intros h p smallest h' recs E L LS H; cbn [evaluations displayed] in *.
  { injection E as <- <-. reflexivity. }
  destruct (evaluate c cfg h p theta cg) as [h1 [p1|]] eqn:Ev; [|injection E as <- <-; reflexivity].
  destruct (evaluations c cfg h1 p1 l) as [h2 rest] eqn:E2. injection E as <- <-.
  destruct (evaluate_heap c cfg _ _ _ _ _ _ L Ev) as [A1 [A2 [_ [A4 _]]]].
  assert (H1 : on_error cfg <> Revert \/ ~ In ObjectiveReversion (errors p1)).
  { destruct H as [H|H]; [left; exact H|right]. apply (H (cell h1 (objective p1)) p1). left. reflexivity. }
  assert (H2 : on_error cfg <> Revert \/ forall v q, In (v, q) rest -> ~ In ObjectiveReversion (errors q)).
  { destruct H as [H|H]; [left; exact H|right]. intros v q Hq. apply (H v q). right. exact Hq. }
  assert (SV : smallest_value h1 smallest = smallest_value h smallest).
  { destruct smallest as [n|]; [|reflexivity]. cbn. apply A4; [exact H1|apply LS; reflexivity]. }
  cbn [map fst running]. rewrite SV. f_equal. rewrite (IH h1 p1 _ h2 rest E2 A2); [| |exact H2].
  - f_equal. unfold next_smallest. rewrite SV. destruct (fltb (cell h1 (objective p1)) (smallest_value h smallest)); [reflexivity|exact SV].
  - intros n. unfold next_smallest. destruct (fltb _ _); [intros [= <-]; exact A2|]. intros Hn. specialize (LS n Hn). lia.
Qed.

(** What the smallest value so far is. *)
Definition state (before : list flt) (s : flt) : Prop :=
  (s = PInf /\ (forall y, ~ In (Num y) before) /\ ~ In NInf before) \/ (exists m, s = Num m /\ least before m) \/ (s = NInf /\ In NInf before).
Lemma state_start : state [] PInf.
Proof. left. split; [reflexivity|]. split; [intros y []|intros []]. Qed.
Lemma in_snoc (l : list flt) x y : In x (l ++ [y]) <-> In x l \/ x = y.
Proof. rewrite in_app_iff. cbn. intuition congruence. Qed.
Lemma state_next before s o : state before s -> state (before ++ [o]) (if fltb o s then o else s).
Proof.
  intros [(-> & N & I)|[(m & -> & I & J & K)|[-> I]]]; destruct o as [x| | |]; cbn [fltb].
  - right. left. exists x. split; [reflexivity|]. split; [apply in_snoc; right; reflexivity|].
    split; [rewrite in_snoc; intros [A|A]; [exact (I A)|discriminate A]|]. intros y. rewrite in_snoc. intros [A|A]; [destruct (N y A)|].
    injection A as ->. lra.
  - left. split; [reflexivity|]. split; [intros y|]; rewrite in_snoc; intros [A|A]; try discriminate A; [exact (N y A)|exact (I A)].
  - right. right. split; [reflexivity|]. apply in_snoc. right. reflexivity.
  - left. split; [reflexivity|]. split; [intros y|]; rewrite in_snoc; intros [A|A]; try discriminate A; [exact (N y A)|exact (I A)].
  - right. left. unfold rltb. destruct (Rlt_dec x m) as [L|L].
    + exists x. split; [reflexivity|]. split; [apply in_snoc; right; reflexivity|].
      split; [rewrite in_snoc; intros [A|A]; [exact (J A)|discriminate A]|]. intros y. rewrite in_snoc. intros [A|A]; [specialize (K y A); lra|].
      injection A as ->. lra.
    + exists m. split; [reflexivity|]. split; [apply in_snoc; left; exact I|].
      split; [rewrite in_snoc; intros [A|A]; [exact (J A)|discriminate A]|]. intros y. rewrite in_snoc. intros [A|A]; [exact (K y A)|].
      injection A as ->. lra.
  - right. left. exists m. split; [reflexivity|]. split; [apply in_snoc; left; exact I|].
    split; [rewrite in_snoc; intros [A|A]; [exact (J A)|discriminate A]|]. intros y. rewrite in_snoc. intros [A|A]; [exact (K y A)|discriminate A].
  - right. right. split; [reflexivity|]. apply in_snoc. right. reflexivity.
  - right. left. exists m. split; [reflexivity|]. split; [apply in_snoc; left; exact I|].
    split; [rewrite in_snoc; intros [A|A]; [exact (J A)|discriminate A]|]. intros y. rewrite in_snoc. intros [A|A]; [exact (K y A)|discriminate A].
  - right. right. split; [reflexivity|]. apply in_snoc. left. exact I.
  - right. right. split; [reflexivity|]. apply in_snoc. left. exact I.
  - right. right. split; [reflexivity|]. apply in_snoc. left. exact I.
  - right. right. split; [reflexivity|]. apply in_snoc. left. exact I.
Qed.
Lemma least_unique l m m' : least l m -> least l m' -> m = m'.
Proof. intros (A & _ & B) (A' & _ & B'). specialize (B m' A'). specialize (B' m A). lra. Qed.
Lemma state_improvement before s o d : state before s -> (improvement s o = Some d <-> improves before o d).
Proof.
  intros H. split.
  - unfold improvement, fsub. destruct H as [(-> & N & I)|[(m & -> & J)|[-> I]]]; destruct o as [x| | |]; cbn [fneg fadd]; try discriminate.
    destruct (Rlt_dec 0 (m + - x)) as [L|L]; [|discriminate]. intros [= <-]. exists m, x. split; [exact J|]. split; [reflexivity|]. split; lra.
  - intros (m & x & J & -> & L & ->). destruct H as [(-> & N & I)|[(m' & -> & J')|[-> I]]].
    + destruct J as (J & _). destruct (N m J).
    + rewrite (least_unique _ _ _ J' J). unfold improvement, fsub. cbn [fneg fadd]. destruct (Rlt_dec 0 (m + - x)) as [G|G]; [f_equal; lra|lra].
    + destruct J as (_ & K & _). contradiction.
Qed.
Lemma running_length s l : length (running s l) = length l.
Proof. revert s. induction l as [|o l IH]; intros s; [reflexivity|]. cbn. rewrite IH. reflexivity. Qed.
Lemma running_improves l : forall before s n d, state before s -> n < length l ->
  (nth n (map (fun x => improvement (snd x) (fst x)) (running s l)) None = Some d <-> improves (before ++ firstn n l) (nth n l NaN) d).
Proof.
  induction l as [|o l IH]; intros before s n d H L; [cbn in L; lia|]. cbn [running map fst snd]. destruct n as [|n]; cbn [nth firstn].
  - rewrite app_nil_r. apply state_improvement. exact H.
  - rewrite (IH (before ++ [o]) _ n d (state_next before s o H)) by (cbn in L; lia). rewrite <- app_assoc. reflexivity.
Qed.
Lemma running_total l : forall before s m0 m, state before s -> s = Num m0 -> least (before ++ l) m ->
  sum_shown (map (fun x => improvement (snd x) (fst x)) (running s l)) = (m0 - m)%R.
Proof.
  induction l as [|o l IH]; intros before s m0 m H -> Lm; cbn [running map fst snd sum_shown].
  - rewrite app_nil_r in Lm. destruct H as [(A & _)|[(m' & [= <-] & J)|[A _]]]; try discriminate A.
    rewrite (least_unique _ _ _ J Lm). lra.
  - assert (Lm' : least ((before ++ [o]) ++ l) m) by (rewrite <- app_assoc; exact Lm).
    pose proof (state_next before (Num m0) o H) as H'. destruct o as [x| | |]; cbn [fltb] in *.
    + unfold rltb in *. destruct (Rlt_dec x m0) as [L|L].
      * rewrite (IH _ (Num x) x m H' eq_refl Lm'). unfold improvement, fsub; cbn [fneg fadd]. destruct (Rlt_dec 0 (m0 + - x)) as [L'|L']; lra.
      * rewrite (IH _ (Num m0) m0 m H' eq_refl Lm'). unfold improvement, fsub; cbn [fneg fadd]. destruct (Rlt_dec 0 (m0 + - x)) as [L'|L']; lra.
    + rewrite (IH _ (Num m0) m0 m H' eq_refl Lm'). reflexivity.
    + exfalso. destruct Lm as (_ & N & _). apply N. apply in_app_iff. right. left. reflexivity.
    + rewrite (IH _ (Num m0) m0 m H' eq_refl Lm'). reflexivity.
Qed.
Lemma running_total_start l : forall before x m, state before PInf -> first_number l x -> least (before ++ l) m ->
  sum_shown (map (fun x => improvement (snd x) (fst x)) (running PInf l)) = (x - m)%R.
Proof.
  induction l as [|o l IH]; intros before x m H (a & b & E & N) Lm; [destruct a; discriminate E|].
  assert (Lm' : least ((before ++ [o]) ++ l) m) by (rewrite <- app_assoc; exact Lm).
  pose proof (state_next before PInf o H) as H'. cbn [running map fst snd].
  destruct a as [|a0 a]; cbn [app] in E; injection E as E0 E; [subst o|subst a0].
  - cbn [fltb] in *. cbn [sum_shown improvement fsub fneg fadd]. rewrite (running_total l _ (Num x) x m H' eq_refl Lm'). reflexivity.
  - assert (F : first_number l x) by (exists a, b; split; [exact E|intros y K; apply (N y); right; exact K]).
    destruct o as [y| | |].
    + destruct (N y). left. reflexivity.
    + cbn [fltb] in *. cbn [sum_shown improvement fsub fneg fadd]. exact (IH _ x m H' F Lm').
    + exfalso. destruct Lm as (_ & K & _). apply K. apply in_app_iff. right. left. reflexivity.
    + cbn [fltb] in *. cbn [sum_shown improvement fsub fneg fadd]. exact (IH _ x m H' F Lm').
Qed.

(* ---------- Errors ---------- *)

Lemma same_failure_iff a b : same_failure a b = true <-> a = b.
Proof.
  unfold same_failure. destruct a as [n m], b as [n' m']. cbn [fst snd]. destruct (list_eq_dec ascii_dec n n') as [->|N].
  - destruct (list_eq_dec ascii_dec m m') as [->|M]; split; try reflexivity; try discriminate. intros [= E]. contradiction.
  - split; [discriminate|]. intros [= E _]. contradiction.
Qed.
Lemma existsb_failure e seen : existsb (same_failure e) seen = true <-> In e seen.
Proof.
  rewrite existsb_exists. split; [intros (x & I & S); apply same_failure_iff in S; subst x; exact I|].
  intros I. exists e. split; [exact I|]. apply same_failure_iff. reflexivity.
Qed.
Lemma distinct_seen seen seen' l : (forall x, In x seen <-> In x seen') -> distinct_failures seen l = distinct_failures seen' l.
Proof.
  revert seen seen'. induction l as [|e l IH]; intros seen seen' H; [reflexivity|]. cbn [distinct_failures].
  assert (B : existsb (same_failure e) seen = existsb (same_failure e) seen').
  { apply eq_true_iff_eq. rewrite !existsb_failure. apply H. }
  rewrite B. destruct (existsb (same_failure e) seen'); [apply IH; exact H|]. f_equal. apply IH. intros x. cbn. rewrite H. reflexivity.
Qed.
Lemma distinct_app l1 : forall seen l2, distinct_failures seen (l1 ++ l2) = distinct_failures seen l1 ++ distinct_failures (seen ++ l1) l2.
Proof.
  induction l1 as [|e l1 IH]; intros seen l2; cbn [app distinct_failures]; [rewrite app_nil_r; reflexivity|].
  destruct (existsb (same_failure e) seen) eqn:E; rewrite IH; cbn [app].
  - f_equal. apply distinct_seen. intros x. rewrite !in_app_iff. cbn. apply existsb_failure in E. intuition congruence.
  - f_equal. f_equal. apply distinct_seen. intros x. cbn. rewrite !in_app_iff. cbn. intuition.
Qed.
Lemma distinct_ordered l : distinct_in_order l (distinct_failures [] l).
Proof.
  induction l as [|e l IH] using rev_ind; [constructor|]. rewrite distinct_app. cbn [app distinct_failures].
  destruct (existsb (same_failure e) l) eqn:E.
  - rewrite app_nil_r. constructor; [exact IH|]. apply existsb_failure. exact E.
  - constructor; [exact IH|]. intros K. apply existsb_failure in K. congruence.
Qed.
Lemma failures_text_distinct l : failures_text l = join_lines (map snd (distinct_failures [] l)).
Proof. destruct l as [|e [|e' l]]; reflexivity. Qed.
Lemma distinct_in_order_in {A} (l ds : list A) : distinct_in_order l ds -> NoDup ds /\ forall x, In x ds <-> In x l.
Proof.
  induction 1 as [|l ds x H [N I] K|l ds x H [N I] K].
  - split; [constructor|reflexivity].
  - split.
    + apply NoDup_rev in N. rewrite <- (rev_involutive (ds ++ [x])), rev_app_distr. apply NoDup_rev. cbn. constructor; [|exact N].
      rewrite <- in_rev, I. exact K.
    + intros y. rewrite !in_app_iff, I. reflexivity.
  - split; [exact N|]. intros y. rewrite in_app_iff, I. cbn. intuition congruence.
Qed.

(* ---------- Lines ---------- *)

Lemma join_lines_cons a l : l <> [] -> join_lines (a :: l) = a ++ newline :: join_lines l.
Proof. destruct l; [contradiction|reflexivity]. Qed.
Lemma join_lines_nested a b : b <> [] -> forall r, join_lines (a ++ join_lines b :: r) = join_lines (a ++ b ++ r).
Proof.
  intros N r. induction a as [|x a IH]; cbn [app].
  - revert N. induction b as [|y b IHb]; intros N; [contradiction|]. destruct b as [|z b].
    + cbn [join_lines]. reflexivity.
    + rewrite (join_lines_cons y (z :: b)) by discriminate. cbn [app]. rewrite (join_lines_cons y (z :: b ++ r)) by discriminate.
      change (z :: b ++ r) with ((z :: b) ++ r). rewrite <- (IHb ltac:(discriminate)). destruct r as [|u r].
      * reflexivity.
      * rewrite !(join_lines_cons _ (u :: r)) by discriminate. rewrite <- app_assoc. reflexivity.
  - assert (M : forall (q : list text) s, a ++ s :: q <> []) by (intros q s K; apply app_eq_nil in K; destruct K as [_ K]; discriminate K).
    rewrite (join_lines_cons x (a ++ join_lines b :: r)) by apply M. rewrite IH.
    rewrite (join_lines_cons x (a ++ b ++ r)); [reflexivity|]. intros K. apply app_eq_nil in K. destruct K as [_ K]. apply app_eq_nil in K. destruct K as [K _]. contradiction.
Qed.

(* ---------- Rows ---------- *)

Lemma cells_length s e smallest : length (progress_cells s e smallest) = length (progress_header s).
Proof. unfold progress_cells, progress_header. destruct (shares_bounded s), (costs_bounded s), (with_gradient s); reflexivity. Qed.
Lemma header_used s j : j < length (progress_header s) -> used j (header_rows (progress_header s)).
Proof.
  unfold progress_header. destruct s as [dg un sb cb wg ab st]. cbn [shares_bounded costs_bounded with_gradient any_bounds].
  intros Hj. unfold used.
  destruct sb, cb, wg, ab; cbn in Hj;
    do 12 (try (destruct j as [|j]; [eexists; split; [vm_compute; right; left; reflexivity|vm_compute; discriminate]|])); lia.
Qed.

Lemma rounded_opp digits x : rounded digits (- x) = (- rounded digits x)%R.
Proof. unfold rounded. apply round_NE_opp. Qed.
Lemma rounded_moderate digits x : (0 < digits)%nat -> (powerRZ 10 (-99) <= x <= 9 * powerRZ 10 99)%R ->
  (powerRZ 10 (-99) <= rounded digits x < powerRZ 10 100)%R.
Proof.
  intros Hd [L U]. assert (P10 : (10 <= 10 ^ Z.of_nat digits)%Z).
  { change 10%Z with (10 ^ 1)%Z at 1. apply Z.pow_le_mono_r; lia. }
  assert (A : rounded digits (powerRZ 10 (-99)) = powerRZ 10 (-99)).
  { apply rounded_exact; [exact Hd|]. exists 1%Z, (-99)%Z. split; [lia|ring]. }
  assert (B : rounded digits (9 * powerRZ 10 99) = (9 * powerRZ 10 99)%R).
  { apply rounded_exact; [exact Hd|]. exists 9%Z, 99%Z. split; [lia|ring]. }
  split; [rewrite <- A; apply rounded_le; [exact Hd|exact L]|].
  apply Rle_lt_trans with (9 * powerRZ 10 99)%R; [rewrite <- B; apply rounded_le; [exact Hd|exact U]|].
  change 100%Z with (1 + 99)%Z. rewrite powerRZ_add by lra. rewrite powerRZ_1.
  assert (0 < powerRZ 10 99)%R by (apply powerRZ_lt; lra). lra.
Qed.
Lemma moderate_length digits x : (0 < digits)%nat -> moderate x -> length (format_number digits x) = (digits + 6)%nat.
Proof.
  intros Hd M. destruct x as [x| | |].
  - apply (number_length digits x Hd). apply exponent_bounds. cbn in M. destruct M as [->|M].
    + left. apply rounded_0.
    + right. destruct (Rle_lt_dec 0 x) as [G|G].
      * rewrite Rabs_right in M by lra. pose proof (rounded_moderate digits x Hd M) as [A B].
        assert (0 < powerRZ 10 (-99))%R by (apply powerRZ_lt; lra). rewrite Rabs_right by lra. lra.
      * rewrite Rabs_left in M by lra. pose proof (rounded_moderate digits (- x) Hd M) as [A B]. rewrite rounded_opp in A, B.
        assert (0 < powerRZ 10 (-99))%R by (apply powerRZ_lt; lra). rewrite Rabs_left by lra. lra.
  - rewrite (format_infinite digits PInf (lit "+INF")) by auto. rewrite !app_length, !repeat_length. pose proof (padding_sum digits). cbn [length lit list_ascii_of_string]. lia.
  - rewrite (format_infinite digits NInf (lit "-INF")) by auto. rewrite !app_length, !repeat_length. pose proof (padding_sum digits). cbn [length lit list_ascii_of_string]. lia.
  - rewrite format_nan. rewrite !app_length, !repeat_length. pose proof (padding_sum digits). cbn [length lit list_ascii_of_string]. lia.
Qed.
Lemma improvement_length digits smallest o : length (improvement_cell digits smallest o) = length (format_number digits (fsub smallest o)).
Proof.
  unfold improvement_cell, improvement. destruct (fsub smallest o) as [d| | |]; try (apply repeat_length).
  destruct (Rlt_dec 0 d); [reflexivity|apply repeat_length].
Qed.
Lemma number_of_length n k : (Z.of_nat n < 10 ^ Z.of_nat (S k))%Z -> length (number_of n) <= S k.
Proof. intros H. unfold number_of. apply integer_length. lia. Qed.
Lemma seconds_length x : (0 <= x <= 359999999)%R -> length (format_seconds x) <= 11.
Proof.
  intros [L U]. unfold format_seconds. set (n := ZnearestE x).
  assert (N : (0 <= n)%Z). { pose proof (@Zrnd_le ZnearestE _ 0%R x L) as K. change 0%R with (IZR 0) in K. rewrite (@Zrnd_IZR ZnearestE _ 0) in K. exact K. }
  assert (N' : (n <= 359999999)%Z). { pose proof (@Zrnd_le ZnearestE _ x 359999999%R U) as K. rewrite (@Zrnd_IZR ZnearestE _ 359999999) in K. exact K. }
  assert (M3 : (0 <= n mod 3600 < 3600)%Z) by (apply Z.mod_pos_bound; lia).
  assert (Hh : (0 <= n / 3600 < 100000)%Z) by (split; [apply Z.div_pos; lia|apply Z.div_lt_upper_bound; lia]).
  assert (Hm : (0 <= n mod 3600 / 60 < 60)%Z) by (split; [apply Z.div_pos; lia|apply Z.div_lt_upper_bound; lia]).
  assert (Hs : (0 <= n mod 3600 mod 60 < 60)%Z) by (apply Z.mod_pos_bound; lia).
  assert (LH : length (padded 2 (n / 3600)) <= 5).
  { unfold padded. rewrite app_length, repeat_length. pose proof (integer_length (n / 3600) 4 ltac:(change (10 ^ Z.of_nat 5)%Z with 100000%Z; lia)). lia. }
  rewrite !app_length.
  rewrite (padded_length (n mod 3600 / 60) 1) by (change (10 ^ Z.of_nat 2)%Z with 100%Z; lia).
  rewrite (padded_length (n mod 3600 mod 60) 1) by (change (10 ^ Z.of_nat 2)%Z with 100%Z; lia).
  cbn [length lit list_ascii_of_string]. lia.
Qed.
Lemma commas_length digits l l' : (0 < digits)%nat -> Forall moderate l -> Forall moderate l' -> length l = length l' ->
  length (join_commas (map (format_number digits) l)) = length (join_commas (map (format_number digits) l')).
Proof.
  intros Hd F. revert l'. induction F as [|x l M F IH]; intros l' F' L; [destruct l'; [reflexivity|discriminate L]|].
  destruct F' as [|x' l' M' F']; [discriminate L|]. cbn [length] in L. specialize (IH l' F' ltac:(lia)).
  destruct l as [|y l], l' as [|y' l']; try discriminate L; cbn [map join_commas].
  - rewrite !moderate_length by assumption. reflexivity.
  - cbn [map join_commas] in IH. rewrite !app_length, !moderate_length by assumption. f_equal. f_equal. exact IH.
Qed.
Lemma count_true_le l : count_true l <= length l.
Proof. unfold count_true. induction l as [|b l IH]; [apply le_n|]. cbn. destruct (bool_dec b true); lia. Qed.

Lemma rows_aligned s e e' smallest smallest' : (0 < digits s)%nat -> fits s e smallest -> fits s e' smallest' -> length (theta e) = length (theta e') ->
  forall j, j < length (progress_header s) ->
    length (nth j (progress_cells s e smallest) []) = length (nth j (progress_cells s e' smallest') []) \/
    exists t, In t (column_of j (header_rows (progress_header s))) /\
      length (nth j (progress_cells s e smallest) []) <= length t /\ length (nth j (progress_cells s e' smallest') []) <= length t.
Proof.
  intros Hd (F1 & F2 & F3 & F4 & F5 & F6 & F7 & F8 & F9 & F10 & F11 & F12) (G1 & G2 & G3 & G4 & G5 & G6 & G7 & G8 & G9 & G10 & G11 & G12) LT.
  assert (C1 : (Z.of_nat (count_true (clipped_shares e)) < 10 ^ 7)%Z) by (pose proof (count_true_le (clipped_shares e)); lia).
  assert (C2 : (Z.of_nat (count_true (clipped_shares e')) < 10 ^ 7)%Z) by (pose proof (count_true_le (clipped_shares e')); lia).
  assert (C3 : (Z.of_nat (count_true (clipped_costs e)) < 10 ^ 7)%Z) by (pose proof (count_true_le (clipped_costs e)); lia).
  assert (C4 : (Z.of_nat (count_true (clipped_costs e')) < 10 ^ 7)%Z) by (pose proof (count_true_le (clipped_costs e')); lia).
  pose proof (commas_length (digits s) (theta e) (theta e') Hd F12 G12 LT) as E1.
  assert (E2 : length (format_number (digits s) (objective_value e)) = length (format_number (digits s) (objective_value e'))) by (rewrite !moderate_length by assumption; reflexivity).
  assert (E3 : length (improvement_cell (digits s) smallest (objective_value e)) = length (improvement_cell (digits s) smallest' (objective_value e')))
    by (rewrite !improvement_length, !moderate_length by assumption; reflexivity).
  assert (E4 : length (format_number (digits s) (gradient_norm e)) = length (format_number (digits s) (gradient_norm e'))) by (rewrite !moderate_length by assumption; reflexivity).
  change (list_sum (map fst (solver_stats e))) with (total (map fst (solver_stats e))) in F5. change (list_sum (map snd (solver_stats e))) with (total (map snd (solver_stats e))) in F6.
  change (list_sum (map fst (solver_stats e'))) with (total (map fst (solver_stats e'))) in G5. change (list_sum (map snd (solver_stats e'))) with (total (map snd (solver_stats e'))) in G6.
  apply (number_of_length _ 3) in F1. apply seconds_length in F2. apply (number_of_length _ 11) in F3. apply (number_of_length _ 10) in F4.
  apply (number_of_length _ 10) in F5. apply (number_of_length _ 10) in F6.
  apply seconds_length in G2. apply (number_of_length _ 11) in G3. apply (number_of_length _ 10) in G4.
  apply (number_of_length _ 10) in G5. apply (number_of_length _ 10) in G6.
  apply (number_of_length _ 6) in C1. apply (number_of_length _ 6) in C2. apply (number_of_length _ 6) in C3. apply (number_of_length _ 6) in C4.
  clear F7 F8 F9 F10 F11 F12 G1 G7 G8 G9 G10 G11 G12 LT.
  unfold progress_cells. set (n1 := number_of _) in *. set (n2 := format_seconds (elapsed e)) in *. set (n3 := number_of (iterations e)) in *. set (n4 := number_of (evaluation_count e)) in *.
  set (n5 := number_of (total (map fst (solver_stats e)))) in *. set (n6 := number_of (total (map snd (solver_stats e)))) in *.
  set (m2 := format_seconds (elapsed e')) in *. set (m3 := number_of (iterations e')) in *. set (m4 := number_of (evaluation_count e')) in *.
  set (m5 := number_of (total (map fst (solver_stats e')))) in *. set (m6 := number_of (total (map snd (solver_stats e')))) in *.
  set (a1 := number_of (count_true (clipped_shares e))) in *. set (b1 := number_of (count_true (clipped_shares e'))) in *.
  set (a2 := number_of (count_true (clipped_costs e))) in *. set (b2 := number_of (count_true (clipped_costs e'))) in *.
  set (a3 := format_number _ (objective_value e)) in *. set (b3 := format_number _ (objective_value e')) in *.
  set (a4 := improvement_cell _ smallest _) in *. set (b4 := improvement_cell _ smallest' _) in *.
  set (a5 := format_number _ (gradient_norm e)) in *. set (b5 := format_number _ (gradient_norm e')) in *.
  set (a6 := join_commas (map _ (theta e))) in *. set (b6 := join_commas (map _ (theta e'))) in *.
  clearbody n1 n2 n3 n4 n5 n6 m2 m3 m4 m5 m6 a1 b1 a2 b2 a3 b3 a4 b4 a5 b5 a6 b6.
  intros j Hj. unfold progress_header in *. destruct (shares_bounded s), (costs_bounded s), (with_gradient s), (any_bounds s); cbn [app length] in Hj |- *;
    do 12 (try (destruct j as [|j]; [cbn [nth]; first [left; assumption
      | right; eexists; split; [vm_compute; left; reflexivity|]; cbn [length]; split; lia
      | right; eexists; split; [vm_compute; right; left; reflexivity|]; cbn [length]; split; lia]|])); cbn in Hj; lia.
Qed.

Lemma table_of_lines header data title border include li lines : format_lines header data title border include li = Some lines ->
  format_table header data title border include li = Some (join_lines lines).
Proof. intros H. unfold format_table. rewrite H. reflexivity. Qed.
Lemma header_nonempty s : progress_header s <> [].
Proof. unfold progress_header. discriminate. Qed.

Lemma progress_read s e e' smallest smallest' : universal s = true -> (0 < digits s)%nat -> fits s e smallest -> fits s e' smallest' -> length (theta e) = length (theta e') ->
  include_header e = true -> include_header e' = false ->
  exists hdr dashes line line',
    format_progress s e smallest = Some (join_lines (error_lines (failures e) ++ (if 1 <? evaluation_count e then [[]] else []) ++ hdr ++ [dashes; line])) /\
    format_progress s e' smallest' = Some (join_lines (error_lines (failures e') ++ [line'])) /\
    map (read_row dashes) hdr = map stripped (header_rows (progress_header s)) /\
    read_row dashes line = stripped (progress_cells s e smallest) /\ read_row dashes line' = stripped (progress_cells s e' smallest').
Proof.
  intros U Hd F F' LT I I'.
  destruct (progress_lines (progress_header s) [] (progress_cells s e smallest) (progress_cells s e' smallest') (header_nonempty s)
    (cells_length s e smallest) (cells_length s e' smallest') (header_used s) (rows_aligned s e e' smallest smallest' Hd F F' LT))
    as (hdr & dashes & line & line' & A & B & C & D & E & _).
  exists hdr, dashes, line, line'. unfold format_progress. rewrite U, I, I', (table_of_lines _ _ _ _ _ _ _ A), (table_of_lines _ _ _ _ _ _ _ B).
  cbn [option_map andb]. split; [|split; [reflexivity|split; [exact C|split; [exact D|exact E]]]]. f_equal. rewrite !app_assoc.
  rewrite (join_lines_nested _ (hdr ++ [dashes; line])); [rewrite app_nil_r, !app_assoc; reflexivity|]. intros K. apply app_eq_nil in K. destruct K as [_ K]. discriminate K.
Qed.

Lemma number_of_value n : FormatSpec.value (number_of n) = Z.of_nat n.
Proof. unfold number_of. apply (integer_spec (Z.of_nat n)). lia. Qed.
Lemma strip_repeat n : strip (repeat blank n) = [].
Proof. pose proof (strip_padded n [] 0) as H. cbn [app repeat] in H. rewrite app_nil_r in H. rewrite H. reflexivity. Qed.
Lemma count_true_spec l : count_true l = length (filter (fun b => b) l).
Proof. unfold count_true. induction l as [|[|] l IH]; [reflexivity| |]; cbn; rewrite IH; reflexivity. Qed.

Lemma header_distinct s : NoDup (progress_header s).
Proof.
  unfold progress_header. destruct (shares_bounded s), (costs_bounded s), (with_gradient s), (any_bounds s); cbn [app];
    repeat (constructor; [cbn [In]; let K := fresh in intro K; repeat (destruct K as [K|K]; [discriminate K|]); exact K|]); constructor.
Qed.
Lemma header_labels s l : In l (progress_header s) <->
     In l [[lit "GMM"; lit "Step"]; [lit "Computation"; lit "Time"]; [lit "Optimization"; lit "Iterations"]; [lit "Objective"; lit "Evaluations"];
           [lit "Fixed Point"; lit "Iterations"]; [lit "Contraction"; lit "Evaluations"]; [lit "Objective"; lit "Value"]; [lit "Objective"; lit "Improvement"]; [[]; lit "Theta"]] \/
     (l = [lit "Clipped"; lit "Shares"] /\ shares_bounded s = true) \/ (l = [lit "Clipped"; lit "Costs"] /\ costs_bounded s = true) \/
     (l = [lit "Projected"; lit "Gradient Norm"] /\ with_gradient s = true /\ any_bounds s = true) \/
     (l = [lit "Gradient"; lit "Norm"] /\ with_gradient s = true /\ any_bounds s = false).
Proof.
  unfold progress_header. destruct (shares_bounded s), (costs_bounded s), (with_gradient s), (any_bounds s); cbn [app In];
    intuition (try discriminate; try congruence).
Qed.
Lemma cells_under s e smallest l t : under (progress_header s) (progress_cells s e smallest) l t ->
    (l = [lit "GMM"; lit "Step"] -> FormatSpec.value t = Z.of_nat (step s)) /\
    (l = [lit "Computation"; lit "Time"] -> (0 <= elapsed e)%R -> exists n, read_seconds t = Some n /\ (Rabs (elapsed e - IZR n) <= / 2)%R) /\
    (l = [lit "Optimization"; lit "Iterations"] -> FormatSpec.value t = Z.of_nat (iterations e)) /\
    (l = [lit "Objective"; lit "Evaluations"] -> FormatSpec.value t = Z.of_nat (evaluation_count e)) /\
    (l = [lit "Fixed Point"; lit "Iterations"] -> FormatSpec.value t = Z.of_nat (list_sum (map fst (solver_stats e)))) /\
    (l = [lit "Contraction"; lit "Evaluations"] -> FormatSpec.value t = Z.of_nat (list_sum (map snd (solver_stats e)))) /\
    (l = [lit "Clipped"; lit "Shares"] -> FormatSpec.value t = Z.of_nat (length (filter (fun b => b) (clipped_shares e)))) /\
    (l = [lit "Clipped"; lit "Costs"] -> FormatSpec.value t = Z.of_nat (length (filter (fun b => b) (clipped_costs e)))) /\
    (l = [lit "Objective"; lit "Value"] -> t = format_number (digits s) (objective_value e)) /\
    (l = [lit "Objective"; lit "Improvement"] ->
       (forall a b, smallest = Num a -> objective_value e = Num b -> (b < a)%R -> t = format_number (digits s) (Num (a - b))) /\
       (~ (exists a b, smallest = Num a /\ objective_value e = Num b /\ (b < a)%R) -> strip t = [])) /\
    (l = [lit "Projected"; lit "Gradient Norm"] \/ l = [lit "Gradient"; lit "Norm"] -> t = format_number (digits s) (gradient_norm e)) /\
    (l = [[]; lit "Theta"] -> t = join_commas (map (format_number (digits s)) (theta e))).
Proof.
  assert (C1 := count_true_spec (clipped_shares e)). assert (C2 := count_true_spec (clipped_costs e)).
  assert (N : forall n, FormatSpec.value (number_of n) = Z.of_nat n) by exact number_of_value.
  assert (I1 : forall a b, smallest = Num a -> objective_value e = Num b -> (b < a)%R -> improvement_cell (digits s) smallest (objective_value e) = format_number (digits s) (Num (a - b))).
  { intros a b -> -> L. unfold improvement_cell, improvement, fsub. cbn [fneg fadd]. destruct (Rlt_dec 0 (a + - b)); [reflexivity|lra]. }
  assert (I2 : ~ (exists a b, smallest = Num a /\ objective_value e = Num b /\ (b < a)%R) -> strip (improvement_cell (digits s) smallest (objective_value e)) = []).
  { intros K. unfold improvement_cell. destruct (improvement smallest (objective_value e)) as [d|] eqn:E; [|apply strip_repeat].
    exfalso. apply K. unfold improvement, fsub in E. destruct smallest as [a| | |], (objective_value e) as [b| | |]; cbn [fneg fadd] in E; try discriminate E.
    destruct (Rlt_dec 0 (a + - b)) as [L|L]; [|discriminate E]. exists a, b. split; [reflexivity|]. split; [reflexivity|lra]. }
  assert (T : (0 <= elapsed e)%R -> exists n, read_seconds (format_seconds (elapsed e)) = Some n /\ (Rabs (elapsed e - IZR n) <= / 2)%R) by exact (seconds_read (elapsed e)).
  unfold under, progress_header, progress_cells. change list_sum with total.
  destruct (shares_bounded s), (costs_bounded s), (with_gradient s), (any_bounds s); cbn [app combine In]; intros K;
    repeat (destruct K as [K|K]; [injection K as <- <-; repeat split; try discriminate; intros; try apply N; try reflexivity; try (apply T; assumption);
      try (rewrite N; congruence); try (eapply I1; eassumption); try (apply I2; assumption);
      try (match goal with H : _ \/ _ |- _ => destruct H as [H|H]; discriminate H end)|]); destruct K.
Qed.
