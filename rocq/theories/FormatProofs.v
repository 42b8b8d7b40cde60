(** Displayed numbers: proofs. *)
From Coq Require Import Ascii String Reals ZArith List Arith Bool Lia Lra Sorted.
From Flocq Require Import Core.
From Verif Require Import FltModel TableModel TableSpec TableProofs FormatModel FormatSpec.
Import ListNotations.
Local Open Scope Z_scope.

(* ---------- Digits ---------- *)
Lemma digit_cases n : 0 <= n < 10 -> n = 0 \/ n = 1 \/ n = 2 \/ n = 3 \/ n = 4 \/ n = 5 \/ n = 6 \/ n = 7 \/ n = 8 \/ n = 9.
Proof. lia. Qed.
Lemma digit_is_digit n : 0 <= n < 10 -> is_digit (digit n) = true.
Proof. intros H. apply digit_cases in H. repeat (destruct H as [H|H]; [rewrite H; reflexivity|]). rewrite H. reflexivity. Qed.
Lemma digit_value n : 0 <= n < 10 -> Z.of_nat (nat_of_ascii (digit n)) - 48 = n.
Proof. intros H. apply digit_cases in H. repeat (destruct H as [H|H]; [rewrite H; reflexivity|]). rewrite H. reflexivity. Qed.
Lemma value_from_app a s t : value_from a (s ++ t) = value_from (value_from a s) t.
Proof. revert a. induction s as [|c s IH]; intros a; [reflexivity|apply IH]. Qed.
Lemma value_app s n : 0 <= n < 10 -> value (s ++ [digit n]) = 10 * value s + n.
Proof. intros H. unfold value. rewrite value_from_app. cbn [value_from]. rewrite digit_value by exact H. reflexivity. Qed.
Lemma last_digits_value k : forall n, 0 <= n -> value (last_digits k n) = n mod 10 ^ Z.of_nat k.
Proof.
  induction k as [|k IH]; intros n H; cbn [last_digits].
  - symmetry. apply Z.mod_1_r.
  - rewrite value_app by (apply Z.mod_pos_bound; lia). rewrite IH by (apply Z.div_pos; lia).
    rewrite Nat2Z.inj_succ, Z.pow_succ_r by lia. rewrite Z.rem_mul_r by (try lia; apply Z.pow_pos_nonneg; lia). lia.
Qed.
Lemma last_digits_length k : forall n, length (last_digits k n) = k.
Proof. induction k as [|k IH]; intros n; [reflexivity|]. cbn [last_digits]. rewrite app_length, IH. cbn. lia. Qed.
Lemma last_digits_digits k : forall n, 0 <= n -> Forall (fun c => is_digit c = true) (last_digits k n).
Proof.
  induction k as [|k IH]; intros n H; [constructor|]. cbn [last_digits]. apply Forall_app. split; [apply IH; apply Z.div_pos; lia|].
  constructor; [|constructor]. apply digit_is_digit. apply Z.mod_pos_bound. lia.
Qed.
Lemma integer_loop_spec fuel : forall n, 0 <= n < 10 * 2 ^ Z.of_nat fuel ->
  value (integer_loop fuel n) = n /\ Forall (fun c => is_digit c = true) (integer_loop fuel n).
Proof.
  induction fuel as [|fuel IH]; intros n H; cbn [integer_loop].
  - change (2 ^ Z.of_nat 0) with 1 in H. unfold value. cbn [value_from]. rewrite digit_value by lia. split; [lia|]. constructor; [apply digit_is_digit; lia|constructor].
  - rewrite Nat2Z.inj_succ, Z.pow_succ_r in H by lia. destruct (Z.ltb_spec n 10).
    + unfold value. cbn [value_from]. rewrite digit_value by lia. split; [lia|]. constructor; [apply digit_is_digit; lia|constructor].
    + assert (B : 0 <= n mod 10 < 10) by (apply Z.mod_pos_bound; lia). assert (E : n = 10 * (n / 10) + n mod 10) by (apply Z.div_mod; lia).
      destruct (IH (n / 10)) as [V D]; [lia|]. rewrite value_app, V by exact B. split; [lia|]. apply Forall_app. split; [exact D|].
      constructor; [apply digit_is_digit; exact B|constructor].
Qed.
Lemma integer_spec n : 0 <= n -> value (integer n) = n /\ Forall (fun c => is_digit c = true) (integer n).
Proof.
  intros H. unfold integer. apply integer_loop_spec. rewrite Z2Nat.id by apply Z.log2_nonneg. split; [exact H|].
  destruct (Z.eq_dec n 0) as [ -> | N]; [cbn; lia|]. pose proof (Z.log2_spec n ltac:(lia)) as [_ U]. rewrite Z.pow_succ_r in U by apply Z.log2_nonneg.
  assert (0 < 2 ^ Z.log2 n) by (apply Z.pow_pos_nonneg; [lia|apply Z.log2_nonneg]). lia.
Qed.
Lemma integer_loop_length fuel : forall n k, 0 <= n < 10 ^ Z.of_nat (S k) -> (length (integer_loop fuel n) <= S k)%nat.
Proof.
  induction fuel as [|fuel IH]; intros n k H; cbn [integer_loop]; [cbn; lia|]. destruct (Z.ltb_spec n 10); [cbn; lia|].
  rewrite app_length. cbn [length]. destruct k as [|k].
  - change (10 ^ Z.of_nat 1) with 10 in H. lia.
  - assert (L : (length (integer_loop fuel (n / 10)) <= S k)%nat); [|lia]. apply IH. split; [apply Z.div_pos; lia|].
    apply Z.div_lt_upper_bound; [lia|]. rewrite (Nat2Z.inj_succ (S k)), Z.pow_succ_r in H by lia. lia.
Qed.
Lemma integer_length n k : 0 <= n < 10 ^ Z.of_nat (S k) -> (length (integer n) <= S k)%nat.
Proof. apply integer_loop_length. Qed.
Lemma zeros_value k s : value (repeat "0"%char k ++ s) = value s.
Proof. unfold value. induction k as [|k IH]; [reflexivity|]. exact IH. Qed.
Lemma padded_spec w n : 0 <= n -> value (padded w n) = n /\ Forall (fun c => is_digit c = true) (padded w n).
Proof.
  intros H. destruct (integer_spec n H) as [V D]. unfold padded. rewrite zeros_value. split; [exact V|]. apply Forall_app. split; [|exact D].
  apply Forall_forall. intros c Hc. apply repeat_spec in Hc. rewrite Hc. reflexivity.
Qed.
Lemma padded_length n w : 0 <= n < 10 ^ Z.of_nat (S w) -> length (padded (S w) n) = S w.
Proof. intros H. unfold padded. rewrite app_length, repeat_length. pose proof (integer_length n w H). lia. Qed.
Lemma padded_length_ge w n : (w <= length (padded w n))%nat.
Proof. unfold padded. rewrite app_length, repeat_length. lia. Qed.
Lemma integer_loop_nonempty fuel n : integer_loop fuel n <> [].
Proof. destruct fuel; cbn; [discriminate|]. destruct (n <? 10); [discriminate|]. intros K. apply app_eq_nil in K. destruct K as [_ K]. discriminate K. Qed.

(* ---------- Reading ---------- *)
Lemma span_digits s c t : Forall (fun c => is_digit c = true) s -> is_digit c = false -> span (s ++ c :: t) = (s, c :: t).
Proof. intros F H. induction F as [|x s Hx F IH]; cbn [app span]; [rewrite H; reflexivity|]. rewrite Hx, IH. reflexivity. Qed.
Lemma span_all s : Forall (fun c => is_digit c = true) s -> span s = (s, []).
Proof. intros F. induction F as [|x s Hx F IH]; cbn [span]; [reflexivity|]. rewrite Hx, IH. reflexivity. Qed.
Lemma strip_no_blank s : ~ In blank s -> strip s = s.
Proof.
  intros H. assert (L : forall t, ~ In blank t -> strip_left t = t).
  { intros t K. destruct t as [|x t]; [reflexivity|]. cbn [strip_left]. destruct (Ascii.eqb_spec x blank) as [ -> | _]; [destruct K; left; reflexivity|reflexivity]. }
  unfold strip. rewrite (L s H), L by (rewrite <- in_rev; exact H). apply rev_involutive.
Qed.
Lemma digits_not c s : is_digit c = false -> Forall (fun c => is_digit c = true) s -> ~ In c s.
Proof. intros H F K. rewrite Forall_forall in F. rewrite (F c K) in H. discriminate H. Qed.
Lemma point_in c s : In c (point s) -> c = "."%char \/ In c s.
Proof. destruct s as [|a [|b s]]; cbn [point]; auto. intros [ -> | [<-|K]]; [right; left; reflexivity|left; reflexivity|right; right; exact K]. Qed.
Lemma point_length s : length (point s) = (length s + (if (2 <=? length s)%nat then 1 else 0))%nat.
Proof. destruct s as [|a [|b s]]; cbn; try reflexivity. lia. Qed.

(* ---------- Rounding ---------- *)
Section Rounding.
  Variable digits : nat.
  Hypothesis Hd : (0 < digits)%nat.
  Notation prec := (Z.of_nat digits).
  Local Instance prec_gt : Prec_gt_0 prec.
  Proof using Hd. unfold Prec_gt_0. lia. Qed.
  Notation fexp := (FLX_exp prec).

  Lemma rounded_format x : generic_format radix10 fexp (rounded digits x).
  Proof using Hd. apply generic_format_round; typeclasses eauto. Qed.
  Lemma rounded_mantissa x : rounded digits x = (IZR (mantissa digits x) * bpow radix10 (exponent digits x - (prec - 1)))%R.
  Proof using Hd.
    unfold mantissa. pose proof (rounded_format x) as G. set (r := rounded digits x) in *. unfold exponent. fold r.
    case Req_bool_spec; intros N.
    - rewrite N, Rmult_0_l, Ztrunc_IZR. lra.
    - pose proof (scaled_mantissa_generic _ _ _ G) as E. unfold scaled_mantissa, cexp, FLX_exp in E.
      replace (prec - 1 - (mag radix10 r - 1)) with (- (mag radix10 r - prec)) by lia. rewrite <- E.
      rewrite Rmult_assoc, <- bpow_plus. replace (- (mag radix10 r - prec) + (mag radix10 r - 1 - (prec - 1))) with 0 by lia. cbn [bpow]. lra.
  Qed.
  Lemma mantissa_bounds x : Z.abs (mantissa digits x) < 10 ^ prec /\ (rounded digits x <> 0%R -> 10 ^ (prec - 1) <= Z.abs (mantissa digits x)).
  Proof using Hd.
    pose proof (rounded_mantissa x) as E. assert (P : forall k, 0 <= k -> IZR (10 ^ k) = bpow radix10 k) by (intros k Hk; exact (IZR_Zpower radix10 k Hk)).
    destruct (Req_dec (rounded digits x) 0) as [Z0|N].
    - split; [|contradiction]. unfold mantissa. rewrite Z0, Rmult_0_l, Ztrunc_IZR. cbn [Z.abs]. apply Z.pow_pos_nonneg; lia.
    - assert (X : exponent digits x = mag radix10 (rounded digits x) - 1) by (unfold exponent; case Req_bool_spec; [contradiction|reflexivity]).
      assert (A : IZR (Z.abs (mantissa digits x)) = (Rabs (rounded digits x) * bpow radix10 (prec - mag radix10 (rounded digits x)))%R).
      { rewrite abs_IZR. rewrite E at 1. rewrite Rabs_mult, (Rabs_pos_eq (bpow _ _)) by apply bpow_ge_0.
        rewrite Rmult_assoc, <- bpow_plus, X. replace (mag radix10 (rounded digits x) - 1 - (prec - 1) + (prec - mag radix10 (rounded digits x))) with 0 by lia. cbn [bpow]. lra. }
      split.
      + apply lt_IZR. rewrite A, P by lia. replace prec with (mag radix10 (rounded digits x) + (prec - mag radix10 (rounded digits x))) at 2 by lia.
        rewrite bpow_plus. apply Rmult_lt_compat_r; [apply bpow_gt_0|]. apply bpow_mag_gt.
      + intros _. apply le_IZR. rewrite A, P by lia. replace (prec - 1) with (mag radix10 (rounded digits x) - 1 + (prec - mag radix10 (rounded digits x))) by lia.
        rewrite bpow_plus. apply Rmult_le_compat_r; [apply bpow_ge_0|]. apply bpow_mag_le. exact N.
  Qed.
  Lemma rounded_0 : rounded digits 0 = 0%R.
  Proof using. apply round_0. typeclasses eauto. Qed.
  Lemma rounded_le x y : (x <= y)%R -> (rounded digits x <= rounded digits y)%R.
  Proof using Hd. apply round_le; typeclasses eauto. Qed.
  Lemma has_digits_format x : has_digits digits x <-> generic_format radix10 fexp x.
  Proof using Hd.
    split.
    - intros (m & e & B & ->). apply generic_format_FLX. exists (Float radix10 m e); [|exact B]. unfold F2R. cbn [Fnum Fexp]. rewrite bpow_powerRZ. reflexivity.
    - intros G. destruct (FLX_format_generic _ _ x G) as [[m e] -> B]. exists m, e. split; [exact B|]. unfold F2R. cbn [Fnum Fexp]. rewrite bpow_powerRZ. reflexivity.
  Qed.
  Lemma rounded_nearest x : has_digits digits (rounded digits x) /\ forall y, has_digits digits y -> (Rabs (rounded digits x - x) <= Rabs (y - x))%R.
  Proof using Hd.
    destruct (round_N_pt radix10 fexp (fun n => negb (Z.even n)) x) as [G N]. split; [apply has_digits_format; exact G|].
    intros y Hy. apply N. apply has_digits_format. exact Hy.
  Qed.
  Lemma rounded_exact x : has_digits digits x -> rounded digits x = x.
  Proof using Hd. intros H. apply round_generic; [typeclasses eauto|]. apply has_digits_format. exact H. Qed.
  Lemma signed_mantissa x : sign_of (if Rlt_bool x 0 then "-"%char else "+"%char) * Z.abs (mantissa digits x) = mantissa digits x.
  Proof using Hd.
    assert (S : ((0 <= x)%R -> 0 <= mantissa digits x) /\ ((x < 0)%R -> mantissa digits x <= 0)).
    { pose proof (rounded_mantissa x) as E. pose proof (bpow_gt_0 radix10 (exponent digits x - (prec - 1))) as B. split.
      - intros H. apply rounded_le in H. rewrite rounded_0, E in H. apply le_IZR. destruct (Rle_lt_dec 0 (IZR (mantissa digits x))) as [K|K]; [exact K|]. nra.
      - intros H. apply Rlt_le, rounded_le in H. rewrite rounded_0, E in H. apply le_IZR. destruct (Rle_lt_dec (IZR (mantissa digits x)) 0) as [K|K]; [exact K|]. nra. }
    destruct S as [P N]. case Rlt_bool_spec; intros H.
    - change (sign_of "-") with (-1). specialize (N H). lia.
    - change (sign_of "+") with 1. specialize (P H). lia.
  Qed.
  Lemma signed_exponent x : sign_of (if exponent digits x <? 0 then "-"%char else "+"%char) * Z.abs (exponent digits x) = exponent digits x.
  Proof using.
    clear Hd. destruct (Z.ltb_spec (exponent digits x) 0).
    - change (sign_of "-") with (-1). lia.
    - change (sign_of "+") with 1. lia.
  Qed.

  (* ---------- Text ---------- *)
  Lemma mantissa_digits x : exists c r, last_digits digits (Z.abs (mantissa digits x)) = c :: r /\ length r = (digits - 1)%nat /\
    Forall (fun c => is_digit c = true) (c :: r) /\ value (c :: r) = Z.abs (mantissa digits x).
  Proof using Hd.
    pose proof (last_digits_length digits (Z.abs (mantissa digits x))) as L. pose proof (last_digits_digits digits (Z.abs (mantissa digits x)) (Z.abs_nonneg _)) as D.
    pose proof (last_digits_value digits (Z.abs (mantissa digits x)) (Z.abs_nonneg _)) as V. rewrite Z.mod_small in V by (split; [apply Z.abs_nonneg|apply mantissa_bounds]).
    destruct (last_digits digits (Z.abs (mantissa digits x))) as [|c r]; [cbn in L; lia|]. exists c, r. split; [reflexivity|]. split; [cbn in L; lia|]. split; assumption.
  Qed.
  Lemma scientific_chars x c : In c (scientific digits x) -> c = "+"%char \/ c = "-"%char \/ c = "."%char \/ c = "E"%char \/ is_digit c = true.
  Proof using Hd.
    unfold scientific. rewrite !in_app_iff. intros [K|[K|[K|K]]].
    - destruct K as [<-|[]]. destruct (Rlt_bool x 0); auto.
    - apply point_in in K. destruct K as [ -> | K]; [auto 9|]. pose proof (last_digits_digits digits (Z.abs (mantissa digits x)) (Z.abs_nonneg _)) as D.
      rewrite Forall_forall in D. auto 9.
    - destruct K as [<-|[<-|[]]]; [auto 9|]. destruct (exponent digits x <? 0); auto 9.
    - pose proof (proj2 (padded_spec 2 (Z.abs (exponent digits x)) (Z.abs_nonneg _))) as D. rewrite Forall_forall in D. auto 9.
  Qed.
  Lemma scientific_no c x : is_digit c = false -> ~ In c (lit "+-.E") -> ~ In c (scientific digits x).
  Proof using Hd.
    intros D N K. apply scientific_chars in K. apply N. cbn. destruct K as [ -> | [ -> | [ -> | [ -> | K]]]]; auto. congruence.
  Qed.
  Lemma read_scientific x w : read_number (centered_in w (scientific digits x)) = Some (rounded digits x).
  Proof using Hd.
    unfold read_number. rewrite strip_centered, strip_no_blank by (apply scientific_no; [reflexivity|cbn; intuition discriminate]).
    unfold scientific. destruct (mantissa_digits x) as (c & r & -> & L & D & V). destruct (padded_spec 2 (Z.abs (exponent digits x)) (Z.abs_nonneg _)) as [VE DE].
    set (es := if exponent digits x <? 0 then _ else _). cbn [app].
    assert (Hc : is_digit c = true) by (inversion D; assumption). assert (Hr : Forall (fun c => is_digit c = true) r) by (inversion D; assumption).
    assert (F : (IZR (sign_of (if Rlt_bool x 0 then "-"%char else "+"%char) * value (c :: r)) * powerRZ 10 (sign_of es * value (padded 2 (Z.abs (exponent digits x))) - Z.of_nat (length r)))%R = rounded digits x).
    { rewrite V, VE, signed_mantissa. unfold es. rewrite signed_exponent, L. rewrite (rounded_mantissa x), bpow_powerRZ. do 2 f_equal. lia. }
    destruct r as [|b r].
    - cbn [point app]. cbn [span]. rewrite Hc. change (is_digit "E") with false. cbn match. change (Ascii.eqb "E" ".") with false. cbn match.
      rewrite span_all by exact DE. change (Ascii.eqb "E" "E") with true. cbn match. rewrite F. reflexivity.
    - cbn [point app]. cbn [span]. rewrite Hc. change (is_digit ".") with false. cbn match. change (Ascii.eqb "." ".") with true. cbn match.
      change (b :: r ++ "E"%char :: es :: padded 2 (Z.abs (exponent digits x))) with ((b :: r) ++ "E"%char :: es :: padded 2 (Z.abs (exponent digits x))).
      rewrite (span_digits (b :: r) "E"%char) by (exact Hr || reflexivity). rewrite span_all by exact DE. change (Ascii.eqb "E" "E") with true. cbn match. rewrite F. reflexivity.
  Qed.
  Lemma scientific_length x : length (scientific digits x) = (digits + (if (2 <=? digits)%nat then 4 else 3) + length (padded 2 (Z.abs (exponent digits x))))%nat.
  Proof using.
    clear Hd. unfold scientific. rewrite !app_length, point_length, last_digits_length. cbn [length]. destruct (2 <=? digits)%nat; lia.
  Qed.
  Lemma leading_digit x : rounded digits x <> 0%R -> exists n, first_digit (scientific digits x) = Some n /\ 1 <= n <= 9.
  Proof using Hd.
    intros N. unfold first_digit. rewrite strip_no_blank by (apply scientific_no; [reflexivity|cbn; intuition discriminate]).
    unfold scientific. destruct (mantissa_bounds x) as [_ B]. specialize (B N).
    assert (E : exists k, digits = S k) by (destruct digits; [lia|eexists; reflexivity]). destruct E as [k E].
    assert (H : forall k n, exists r, last_digits (S k) n = digit (n / 10 ^ Z.of_nat k mod 10) :: r).
    { clear. induction k as [|k IH]; intros n; [exists []; cbn; rewrite Z.div_1_r; reflexivity|].
      destruct (IH (n / 10)) as [r Hr]. exists (r ++ [digit (n mod 10)]). change (last_digits (S (S k)) n) with (last_digits (S k) (n / 10) ++ [digit (n mod 10)]). rewrite Hr.
      rewrite Nat2Z.inj_succ, Z.pow_succ_r, <- Z.div_div by (try lia; apply Z.pow_pos_nonneg; lia). reflexivity. }
    set (m := Z.abs (mantissa digits x)) in *. pose proof (proj1 (mantissa_bounds x)) as U. fold m in U. rewrite E in B, U. replace (last_digits digits m) with (last_digits (S k) m) by (rewrite <- E; reflexivity). destruct (H k m) as [r ->].
    rewrite Nat2Z.inj_succ in B, U. replace (Z.succ (Z.of_nat k) - 1) with (Z.of_nat k) in B by lia. rewrite Z.pow_succ_r in U by lia.
    assert (P : 0 < 10 ^ Z.of_nat k) by (apply Z.pow_pos_nonneg; lia).
    assert (Q : 1 <= m / 10 ^ Z.of_nat k < 10) by (split; [apply Z.div_le_lower_bound; lia|apply Z.div_lt_upper_bound; lia]).
    exists (m / 10 ^ Z.of_nat k). rewrite Z.mod_small by lia. split; [|lia].
    assert (V : value [digit (m / 10 ^ Z.of_nat k)] = m / 10 ^ Z.of_nat k) by (unfold value; cbn [value_from]; rewrite digit_value by lia; lia).
    rewrite <- V at 2. destruct r as [|b r]; reflexivity.
  Qed.
End Rounding.

(* ---------- Special values ---------- *)
Lemma starts_chars p : forall s, starts_with p s = true -> forall c, In c p -> In c s.
Proof.
  induction p as [|a p IH]; intros s H c Hc; [destruct Hc|]. destruct s as [|x s]; [discriminate H|]. cbn [starts_with] in H.
  apply andb_true_iff in H. destruct H as [E H]. apply Ascii.eqb_eq in E. destruct Hc as [<-|Hc]; [left; symmetry; exact E|right; exact (IH s H c Hc)].
Qed.
Lemma contains_chars p : forall s, contains p s = true -> forall c, In c p -> In c s.
Proof.
  induction s as [|x s IH]; intros H c Hc; cbn [contains] in H; apply orb_true_iff in H; destruct H as [H|H].
  - exact (starts_chars p [] H c Hc).
  - discriminate H.
  - exact (starts_chars p (x :: s) H c Hc).
  - right. exact (IH H c Hc).
Qed.
Lemma not_contains p s c : In c p -> ~ In c s -> contains p s = false.
Proof. intros Hc N. destruct (contains p s) eqn:E; [|reflexivity]. destruct (N (contains_chars p s E c Hc)). Qed.
Lemma centered_chars w s c : c <> blank -> In c (centered_in w s) -> In c s.
Proof.
  intros N. unfold centered_in. rewrite !in_app_iff. intros [K|[K|K]]; [|exact K|]; apply repeat_spec in K; contradiction.
Qed.
Lemma contains_blanks a p n t : a <> blank -> contains (a :: p) (repeat blank n ++ t) = contains (a :: p) t.
Proof.
  intros N. induction n as [|n IH]; [reflexivity|]. cbn [repeat app contains starts_with].
  destruct (Ascii.eqb_spec a blank) as [E|_]; [contradiction|]. exact IH.
Qed.
Lemma replace_blanks a p q n t : a <> blank -> replace (a :: p) q (repeat blank n ++ t) = repeat blank n ++ replace (a :: p) q t.
Proof.
  intros N. unfold replace. induction n as [|n IH]; [reflexivity|]. cbn [repeat app replace_from starts_with].
  destruct (Ascii.eqb_spec a blank) as [E|_]; [contradiction|]. cbn [andb]. rewrite IH. reflexivity.
Qed.
Lemma replace_only_blanks a p q n : a <> blank -> replace (a :: p) q (repeat blank n) = repeat blank n.
Proof. intros N. pose proof (replace_blanks a p q n [] N) as H. rewrite app_nil_r in H. rewrite H. cbn. apply app_nil_r. Qed.

Lemma format_finite digits x : (0 < digits)%nat -> format_number digits (Num x) = centered_in (digits + 6) (scientific digits x).
Proof.
  intros Hd. unfold format_number. rewrite (not_contains (lit "NAN") _ "N"%char); [reflexivity|left; reflexivity|].
  intros K. apply centered_chars in K; [|discriminate]. revert K. apply scientific_no; [exact Hd|reflexivity|cbn; intuition discriminate].
Qed.
(** What the text of special values is: some spaces on both sides. *)
Definition padding (digits : nat) : nat * nat := let e := (digits + 6 - 4)%nat in ((e / 2)%nat, (e - e / 2)%nat).
Lemma format_nan digits : format_number digits NaN = repeat blank (fst (padding digits)) ++ lit " NAN" ++ repeat blank (snd (padding digits)).
Proof.
  unfold format_number, centered_in, padding. change (length (lit "+NAN")) with 4%nat. cbn [fst snd]. set (e := (digits + 6 - 4)%nat).
  unfold lit at 1. cbn [list_ascii_of_string]. rewrite contains_blanks by discriminate. cbn [contains lit list_ascii_of_string app starts_with Ascii.eqb andb orb Bool.eqb].
  change (lit "+") with ["+"%char]. rewrite replace_blanks by discriminate. f_equal.
  transitivity (lit " NAN" ++ replace ["+"%char] (lit " ") (repeat blank (e - e / 2))); [reflexivity|].
  rewrite replace_only_blanks by discriminate. reflexivity.
Qed.
Lemma format_infinite digits (f : flt) s : (f = PInf /\ s = lit "+INF") \/ (f = NInf /\ s = lit "-INF") ->
  format_number digits f = repeat blank (fst (padding digits)) ++ s ++ repeat blank (snd (padding digits)).
Proof.
  intros H. unfold format_number.
  assert (E : match f with Num x => scientific digits x | PInf => lit "+INF" | NInf => lit "-INF" | NaN => lit "+NAN" end = s) by (destruct H as [[-> ->]|[-> ->]]; reflexivity).
  rewrite E, (not_contains (lit "NAN") _ "A"%char); [|right; left; reflexivity|].
  - unfold centered_in, padding. replace (length s) with 4%nat by (destruct H as [[_ ->]|[_ ->]]; reflexivity). reflexivity.
  - intros K. apply centered_chars in K; [|discriminate]. destruct H as [[_ ->]|[_ ->]]; cbn in K; intuition discriminate.
Qed.
Lemma padding_sum digits : (fst (padding digits) + snd (padding digits) = digits + 2)%nat.
Proof. unfold padding. cbn [fst snd]. assert ((digits + 6 - 4) / 2 <= digits + 6 - 4)%nat by (apply Nat.div_le_upper_bound; lia). lia. Qed.
Lemma strip_padded k s l : strip (repeat blank k ++ s ++ repeat blank l) = strip s.
Proof.
  unfold strip. rewrite strip_left_blanks, strip_left_app. destruct (strip_left s) as [|x s'].
  - rewrite <- (app_nil_r (repeat blank l)), strip_left_blanks. reflexivity.
  - rewrite rev_app_distr, repeat_rev, strip_left_blanks. reflexivity.
Qed.
(** Standard errors. *)
Lemma se_finite digits x : (0 < digits)%nat -> format_se digits (Num x) = lit "(" ++ format_number digits (Num x) ++ lit ")".
Proof.
  intros Hd. unfold format_se. rewrite (format_finite digits x Hd).
  assert (N : forall p c, In c p -> In c (lit "NI") -> contains p (centered_in (digits + 6) (scientific digits x)) = false).
  { intros p c Hp Hc. apply (not_contains p _ c Hp). intros K. apply centered_chars in K; [|intros ->; cbn in Hc; intuition discriminate].
    revert K. cbn in Hc. destruct Hc as [<-|[<-|[]]]; (apply scientific_no; [exact Hd|reflexivity|cbn; intuition discriminate]). }
  cbn [find]. rewrite (N (lit "NAN") "N"%char), (N (lit "-INF") "N"%char), (N (lit "+INF") "N"%char) by (cbn; auto). reflexivity.
Qed.
Lemma se_special digits (f : flt) s : (f = PInf /\ s = lit "+INF") \/ (f = NInf /\ s = lit "-INF") \/ (f = NaN /\ s = lit "NAN") ->
  strip (format_se digits f) = lit "(" ++ s ++ lit ")" /\ length (format_se digits f) = (digits + 8)%nat.
Proof.
  intros H.
  assert (V : format_se digits f = repeat blank (fst (padding digits)) ++ (match f with NaN => lit " " | _ => [] end ++ lit "(" ++ s ++ lit ")") ++ repeat blank (snd (padding digits))).
  2:{ rewrite V. pose proof (padding_sum digits). split; [rewrite strip_padded|rewrite !app_length, !repeat_length]; destruct H as [[-> ->]|[[-> ->]|[-> ->]]]; try reflexivity; cbn [length lit list_ascii_of_string]; lia. }
  set (k := fst (padding digits)). set (l := snd (padding digits)).
  unfold format_se. destruct H as [H|[H|H]].
  - destruct H as [-> ->]. rewrite (format_infinite digits PInf (lit "+INF")) by auto. fold k l.
    assert (A : forall c p, In c p -> c <> blank -> ~ In c (lit "+INF") -> contains p (repeat blank k ++ lit "+INF" ++ repeat blank l) = false).
    { intros c p Hc Nb N. apply (not_contains p _ c Hc). rewrite !in_app_iff. intros [K|[K|K]]; [|exact (N K)|]; apply repeat_spec in K; contradiction. }
    cbn [find]. rewrite (A "A"%char (lit "NAN")), (A "-"%char (lit "-INF")) by (cbn; intuition discriminate).
    change (lit "+INF") with ("+"%char :: lit "INF") at 1. rewrite contains_blanks by discriminate. change (contains ("+"%char :: lit "INF") (lit "+INF" ++ repeat blank l)) with true. cbn match.
    change (lit "+INF") with ("+"%char :: lit "INF") at 1. rewrite replace_blanks by discriminate.
    change (replace ("+"%char :: lit "INF") (lit "(" ++ lit "+INF" ++ lit ")") (lit "+INF" ++ repeat blank l)) with (lit "(+INF)" ++ replace ("+"%char :: lit "INF") (lit "(" ++ lit "+INF" ++ lit ")") (repeat blank l)).
    rewrite replace_only_blanks by discriminate. reflexivity.
  - destruct H as [-> ->]. rewrite (format_infinite digits NInf (lit "-INF")) by auto. fold k l.
    assert (A : forall c p, In c p -> c <> blank -> ~ In c (lit "-INF") -> contains p (repeat blank k ++ lit "-INF" ++ repeat blank l) = false).
    { intros c p Hc Nb N. apply (not_contains p _ c Hc). rewrite !in_app_iff. intros [K|[K|K]]; [|exact (N K)|]; apply repeat_spec in K; contradiction. }
    cbn [find]. rewrite (A "A"%char (lit "NAN")) by (cbn; intuition discriminate).
    change (lit "-INF") with ("-"%char :: lit "INF") at 1. rewrite contains_blanks by discriminate. change (contains ("-"%char :: lit "INF") (lit "-INF" ++ repeat blank l)) with true. cbn match.
    change (lit "-INF") with ("-"%char :: lit "INF") at 1. rewrite replace_blanks by discriminate.
    change (replace ("-"%char :: lit "INF") (lit "(" ++ lit "-INF" ++ lit ")") (lit "-INF" ++ repeat blank l)) with (lit "(-INF)" ++ replace ("-"%char :: lit "INF") (lit "(" ++ lit "-INF" ++ lit ")") (repeat blank l)).
    rewrite replace_only_blanks by discriminate. reflexivity.
  - destruct H as [-> ->]. rewrite (format_nan digits). fold k l.
    cbn [find]. change (lit "NAN") with ("N"%char :: lit "AN") at 1. rewrite contains_blanks by discriminate. change (contains ("N"%char :: lit "AN") (lit " NAN" ++ repeat blank l)) with true. cbn match.
    change (lit "NAN") with ("N"%char :: lit "AN") at 1. rewrite replace_blanks by discriminate.
    change (replace ("N"%char :: lit "AN") (lit "(" ++ lit "NAN" ++ lit ")") (lit " NAN" ++ repeat blank l)) with (lit " (NAN)" ++ replace ("N"%char :: lit "AN") (lit "(" ++ lit "NAN" ++ lit ")") (repeat blank l)).
    rewrite replace_only_blanks by discriminate. reflexivity.
Qed.

(* ---------- Widths ---------- *)
Lemma value_bound s : Forall (fun c => is_digit c = true) s -> forall a, 0 <= a -> 0 <= value_from a s < (a + 1) * 10 ^ Z.of_nat (length s).
Proof.
  intros F. induction F as [|c s Hc F IH]; intros a Ha; cbn [value_from length]; [change (10 ^ Z.of_nat 0) with 1; lia|].
  assert (D : 0 <= Z.of_nat (nat_of_ascii c) - 48 <= 9).
  { unfold is_digit in Hc. apply andb_true_iff in Hc. destruct Hc as [L U]. apply Nat.leb_le in L, U. lia. }
  specialize (IH (10 * a + (Z.of_nat (nat_of_ascii c) - 48)) ltac:(lia)). rewrite Nat2Z.inj_succ, Z.pow_succ_r by lia.
  assert (P : 0 < 10 ^ Z.of_nat (length s)) by (apply Z.pow_pos_nonneg; lia). nia.
Qed.
Lemma padded_long n : 100 <= n -> (3 <= length (padded 2 n))%nat.
Proof.
  intros H. destruct (padded_spec 2 n ltac:(lia)) as [V D]. pose proof (value_bound _ D 0 ltac:(lia)) as B. fold (value (padded 2 n)) in B. rewrite V in B.
  destruct (Nat.le_gt_cases 3 (length (padded 2 n))) as [L|L]; [exact L|]. exfalso.
  assert (10 ^ Z.of_nat (length (padded 2 n)) <= 10 ^ 2) by (apply Z.pow_le_mono_r; lia). change (10 ^ 2) with 100 in *. lia.
Qed.
Lemma number_length digits x : (0 < digits)%nat -> Z.abs (exponent digits x) < 100 -> length (format_number digits (Num x)) = (digits + 6)%nat.
Proof.
  intros Hd B. rewrite (format_finite digits x Hd). apply centered_length. rewrite scientific_length.
  rewrite (padded_length (Z.abs (exponent digits x)) 1) by (change (10 ^ Z.of_nat 2) with 100; lia). destruct (2 <=? digits)%nat; lia.
Qed.
Lemma number_longer digits x : (2 <= digits)%nat -> 100 <= Z.abs (exponent digits x) -> (digits + 6 < length (format_number digits (Num x)))%nat.
Proof.
  intros Hd B. rewrite (format_finite digits x ltac:(lia)). unfold centered_in. rewrite !app_length, scientific_length.
  pose proof (padded_long _ B). destruct (Nat.leb_spec 2 digits); lia.
Qed.
Lemma exponent_bounds digits x : (rounded digits x = 0 \/ powerRZ 10 (-99) <= Rabs (rounded digits x) < powerRZ 10 100)%R -> Z.abs (exponent digits x) < 100.
Proof.
  unfold exponent. intros H. case Req_bool_spec; intros N; [cbn; lia|]. destruct H as [H|[L U]]; [contradiction|].
  change 10%R with (IZR radix10) in L, U. rewrite <- !bpow_powerRZ in L, U.
  apply mag_gt_bpow in L. apply mag_le_bpow in U; [|exact N]. lia.
Qed.
Lemma exponent_beyond digits x : rounded digits x <> 0%R -> (Rabs (rounded digits x) < powerRZ 10 (-99) \/ powerRZ 10 100 <= Rabs (rounded digits x))%R -> 100 <= Z.abs (exponent digits x).
Proof.
  unfold exponent. intros N H. case Req_bool_spec; intros N'; [contradiction|].
  change 10%R with (IZR radix10) in H. rewrite <- !bpow_powerRZ in H. destruct H as [H|H].
  - apply mag_le_bpow in H; [|exact N]. lia.
  - apply mag_gt_bpow in H. lia.
Qed.

(* ---------- Durations ---------- *)
Lemma seconds_read x : (0 <= x)%R -> exists n, read_seconds (format_seconds x) = Some n /\ (Rabs (x - IZR n) <= / 2)%R.
Proof.
  intros H. exists (ZnearestE x). split; [|apply Znearest_half]. set (n := ZnearestE x).
  assert (N : 0 <= n). { pose proof (@Zrnd_le ZnearestE _ 0%R x H) as K. change 0%R with (IZR 0) in K. rewrite (@Zrnd_IZR ZnearestE _ 0) in K. exact K. }
  unfold format_seconds. fold n. set (h := n / 3600). set (m := n mod 3600 / 60). set (s := n mod 3600 mod 60).
  assert (M3 : 0 <= n mod 3600 < 3600) by (apply Z.mod_pos_bound; lia).
  assert (Hh : 0 <= h) by (apply Z.div_pos; lia).
  assert (Hm : 0 <= m < 60) by (unfold m; split; [apply Z.div_pos; lia|apply Z.div_lt_upper_bound; lia]).
  assert (Hs : 0 <= s < 60) by (apply Z.mod_pos_bound; lia).
  assert (E : n = h * 3600 + m * 60 + s).
  { unfold h, m, s. rewrite (Z.div_mod n 3600) at 1 by lia. rewrite (Z.div_mod (n mod 3600) 60) at 1 by lia. lia. }
  destruct (padded_spec 2 h Hh) as [Vh Dh]. destruct (padded_spec 2 m ltac:(lia)) as [Vm Dm]. destruct (padded_spec 2 s ltac:(lia)) as [Vs Ds].
  pose proof (padded_length m 1 ltac:(change (10 ^ Z.of_nat 2) with 100; lia)) as Lm. pose proof (padded_length s 1 ltac:(change (10 ^ Z.of_nat 2) with 100; lia)) as Ls.
  unfold read_seconds. change (lit ":") with [":"%char]. cbn [app].
  rewrite (span_digits _ ":"%char _ Dh eq_refl), (span_digits _ ":"%char _ Dm eq_refl), (span_all _ Ds).
  rewrite Lm, Ls, Vh, Vm, Vs. change (Ascii.eqb ":" ":") with true. rewrite (proj2 (Z.ltb_lt m 60)), (proj2 (Z.ltb_lt s 60)) by lia. cbn. f_equal. lia.
Qed.

(* ---------- Progress ---------- *)
Lemma trunc_floor t : (0 <= t)%R -> Ztrunc (t / 60) = Zfloor (t / 60).
Proof. intros H. apply Ztrunc_floor. lra. Qed.
Definition minute (t : R) : Z := Zfloor (t / 60).
Lemma later_minute t n : (60 * IZR n < t)%R -> n <= minute t.
Proof. intros H. apply Zfloor_lub. lra. Qed.
Lemma progress_spec : forall times next i, (forall t, In t times -> 0 <= t)%R ->
  (forall k t, In (k, t) (progress_loop next i times) -> (i < k <= i + length times)%nat /\ nth (k - S i) times 0%R = t /\ next <= minute t) /\
  StronglySorted (fun p q => (fst p < fst q)%nat /\ minute (snd p) < minute (snd q)) (progress_loop next i times).
Proof.
  induction times as [|t times IH]; intros next i H; cbn [progress_loop]; [split; [intros k t []|constructor]|].
  assert (H' : forall t, In t times -> (0 <= t)%R) by (intros u Hu; apply H; right; exact Hu).
  case Rlt_bool_spec; intros C.
  - rewrite (trunc_floor t (H t (or_introl eq_refl))). fold (minute t). destruct (IH (minute t + 1) (S i) H') as [A SS]. split.
    + intros k u [K|K].
      * injection K as <- <-. rewrite Nat.sub_diag. split; [cbn [length]; lia|]. split; [reflexivity|]. exact (later_minute t next C).
      * destruct (A k u K) as (B & E & M). split; [cbn [length]; lia|]. split.
        -- replace (k - S i)%nat with (S (k - S (S i))) by lia. exact E.
        -- pose proof (later_minute t next C). lia.
    + constructor; [exact SS|]. apply Forall_forall. intros [k u] K. destruct (A k u K) as (B & _ & M). cbn [fst snd]. split; lia.
  - destruct (IH next (S i) H') as [A SS]. split; [|exact SS]. intros k u K. destruct (A k u K) as (B & E & M). split; [cbn [length]; lia|]. split; [|exact M].
    replace (k - S i)%nat with (S (k - S (S i))) by lia. exact E.
Qed.
(** A message for the first item that is finished after the minute that follows. *)
Lemma progress_none : forall times next i, progress_loop next i times = [] -> forall t, In t times -> (t <= 60 * IZR next)%R.
Proof.
  induction times as [|t times IH]; intros next i E u H; [destruct H|]. cbn [progress_loop] in E. revert E. case Rlt_bool_spec; intros C E; [discriminate E|].
  destruct H as [<-|H]; [exact C|exact (IH next (S i) E u H)].
Qed.
