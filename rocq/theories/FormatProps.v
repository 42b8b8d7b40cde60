(** Theorems about displayed numbers and progress: C153. *)
From Coq Require Import Ascii String Reals ZArith List Arith Bool Lia Lra Sorted.
From Flocq Require Import Core.
From Verif Require Import FltModel TableModel TableSpec TableProofs FormatModel FormatSpec FormatProofs.
Import ListNotations.
Local Open Scope Z_scope.

(** Displayed numbers are nearest to what is displayed among numbers with options.digits significant digits, and equal to what is
    displayed if it is such a number; the first digit is not zero unless the number is. *)
Theorem C153_numbers digits x : (0 < digits)%nat ->
  exists r, read_number (format_number digits (Num x)) = Some r /\
    has_digits digits r /\ (forall y, has_digits digits y -> (Rabs (r - x) <= Rabs (y - x))%R) /\ (has_digits digits x -> r = x) /\
    (r <> 0%R -> exists n, first_digit (format_number digits (Num x)) = Some n /\ 1 <= n <= 9).
Proof.
  intros Hd. exists (rounded digits x). rewrite (format_finite digits x Hd). split; [exact (read_scientific digits Hd x _)|].
  destruct (rounded_nearest digits Hd x) as [F N]. split; [exact F|]. split; [exact N|]. split; [exact (rounded_exact digits Hd x)|].
  intros H. unfold first_digit. rewrite strip_centered. exact (leading_digit digits Hd x H).
Qed.
Print Assumptions C153_numbers.

(** Displaying keeps numbers in order. *)
Theorem C153_order digits x y : (0 < digits)%nat -> (x <= y)%R ->
  exists r s, read_number (format_number digits (Num x)) = Some r /\ read_number (format_number digits (Num y)) = Some s /\ (r <= s)%R.
Proof.
  intros Hd H. exists (rounded digits x), (rounded digits y). rewrite !(format_finite digits _ Hd).
  split; [exact (read_scientific digits Hd x _)|]. split; [exact (read_scientific digits Hd y _)|]. exact (rounded_le digits Hd x y H).
Qed.
Print Assumptions C153_order.

(** All of them take up digits + 6 characters, as do infinities and NaN, except numbers whose exponents have more than two digits, which take up more. *)
Theorem C153_widths digits x : (0 < digits)%nat ->
  length (format_number digits PInf) = (digits + 6)%nat /\ length (format_number digits NInf) = (digits + 6)%nat /\ length (format_number digits NaN) = (digits + 6)%nat /\
  exists r, read_number (format_number digits (Num x)) = Some r /\
    ((r = 0 \/ powerRZ 10 (-99) <= Rabs r < powerRZ 10 100)%R -> length (format_number digits (Num x)) = (digits + 6)%nat) /\
    (r <> 0%R -> (Rabs r < powerRZ 10 (-99) \/ powerRZ 10 100 <= Rabs r)%R -> (2 <= digits)%nat -> (digits + 6 < length (format_number digits (Num x)))%nat).
Proof.
  intros Hd. pose proof (padding_sum digits) as P.
  split; [rewrite (format_infinite digits PInf (lit "+INF")) by auto; rewrite !app_length, !repeat_length; cbn [length lit list_ascii_of_string]; lia|].
  split; [rewrite (format_infinite digits NInf (lit "-INF")) by auto; rewrite !app_length, !repeat_length; cbn [length lit list_ascii_of_string]; lia|].
  split; [rewrite format_nan; rewrite !app_length, !repeat_length; cbn [length lit list_ascii_of_string]; lia|].
  exists (rounded digits x). split; [rewrite (format_finite digits x Hd); exact (read_scientific digits Hd x _)|]. split.
  - intros B. apply (number_length digits x Hd). apply exponent_bounds. exact B.
  - intros N B D. apply (number_longer digits x D). apply exponent_beyond; assumption.
Qed.
Print Assumptions C153_widths.

(** Values that are not finite are displayed as words. *)
Theorem C153_special digits : strip (format_number digits PInf) = lit "+INF" /\ strip (format_number digits NInf) = lit "-INF" /\ strip (format_number digits NaN) = lit "NAN".
Proof.
  rewrite (format_infinite digits PInf (lit "+INF")), (format_infinite digits NInf (lit "-INF")), format_nan by auto. rewrite !strip_padded. repeat split.
Qed.
Print Assumptions C153_special.

(** Standard errors are the same in parentheses, so that they take up two more characters. *)
Theorem C153_standard_errors digits : (0 < digits)%nat ->
  (forall x, format_se digits (Num x) = lit "(" ++ format_number digits (Num x) ++ lit ")") /\
  strip (format_se digits PInf) = lit "(+INF)" /\ strip (format_se digits NInf) = lit "(-INF)" /\ strip (format_se digits NaN) = lit "(NAN)" /\
  forall f, length (format_se digits f) = (length (format_number digits f) + 2)%nat.
Proof.
  intros Hd. split; [exact (fun x => se_finite digits x Hd)|].
  destruct (se_special digits PInf (lit "+INF")) as [P LP]; [auto|]. destruct (se_special digits NInf (lit "-INF")) as [N LN]; [auto|].
  destruct (se_special digits NaN (lit "NAN")) as [Q LQ]; [auto|]. split; [exact P|]. split; [exact N|]. split; [exact Q|].
  destruct (C153_widths digits 0 Hd) as (WP & WN & WQ & _).
  intros [x| | |]; [|rewrite LP, WP; lia|rewrite LN, WN; lia|rewrite LQ, WQ; lia].
  rewrite (se_finite digits x Hd), !app_length. cbn. lia.
Qed.
Print Assumptions C153_standard_errors.

(** Durations are displayed as hours, minutes and seconds that differ by at most half a second. *)
Theorem C153_durations x : (0 <= x)%R -> exists n, read_seconds (format_seconds x) = Some n /\ (Rabs (x - IZR n) <= / 2)%R.
Proof. exact (seconds_read x). Qed.
Print Assumptions C153_durations.

(** Messages about progress say how many items were finished at what time.  Each is from a later minute than the one before and than the
    start, and without messages, no item took until after the end of the first minute. *)
Theorem C153_progress initial times : (0 <= initial)%R -> (forall t, In t times -> 0 <= t)%R ->
  let messages := output_progress initial times in
  (forall k t, In (k, t) messages -> (1 <= k <= length times)%nat /\ nth (k - 1) times 0%R = t /\ Zfloor (initial / 60) < Zfloor (t / 60)) /\
  StronglySorted (fun p q => (fst p < fst q)%nat /\ Zfloor (snd p / 60) < Zfloor (snd q / 60)) messages /\
  (messages = [] -> forall t, In t times -> (t <= 60 * (IZR (Zfloor (initial / 60)) + 1))%R).
Proof.
  intros H0 H messages. unfold messages, output_progress. rewrite (trunc_floor initial H0).
  destruct (progress_spec times (Zfloor (initial / 60) + 1) 0 H) as [A S0]. split; [|split; [exact S0|]].
  - intros k t K. destruct (A k t K) as (B & E & M). split; [lia|]. split; [exact E|]. unfold minute in M. lia.
  - intros E t Ht. pose proof (progress_none times _ _ E t Ht) as L. rewrite plus_IZR in L. exact L.
Qed.
Print Assumptions C153_progress.

(** Sixteen digits hold every integer below 10^16, and three hold -1/8. *)
Example C153_applies : (forall m, Z.abs m < 10 ^ 16 -> has_digits 16 (IZR m)) /\ has_digits 3 (-1 / 8) /\
  output_progress 10 [30; 70; 130; 150; 400]%R = [(2%nat, 70%R); (3%nat, 130%R); (5%nat, 400%R)].
Proof.
  split; [|split].
  - intros m H. exists m, 0. split; [exact H|]. cbn. lra.
  - exists (-125), (-3). split; [reflexivity|]. change (powerRZ 10 (-3)) with (/ (10 ^ 3))%R. field_simplify. lra.
  - unfold output_progress.
    assert (T : forall x n, (IZR n <= x < IZR n + 1)%R -> 0 <= n -> Ztrunc x = n).
    { intros x n B N. rewrite Ztrunc_floor by (apply (IZR_le 0) in N; lra). apply Zfloor_imp. rewrite plus_IZR. exact B. }
    rewrite (T (10 / 60)%R 0) by (lra || lia). cbn [progress_loop].
    rewrite Rlt_bool_false by (cbn; lra). rewrite Rlt_bool_true by (cbn; lra). rewrite (T (70 / 60)%R 1) by (lra || lia).
    rewrite Rlt_bool_true by (cbn; lra). rewrite (T (130 / 60)%R 2) by (lra || lia).
    rewrite Rlt_bool_false by (cbn; lra). rewrite Rlt_bool_true by (cbn; lra). reflexivity.
Qed.
