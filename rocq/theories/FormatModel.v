(** Numbers, standard errors, durations and progress messages as they are displayed.  pyblp/utilities/basics.py 306-341.
    Strings are lists of characters, as in TableModel.  Definitions only. *)
From Coq Require Import Ascii String Reals ZArith List Arith Bool.
From Flocq Require Import Core.
From Verif Require Import FltModel TableModel.
Import ListNotations.
Local Open Scope Z_scope.

(* ---------- Python's strings ---------- *)

(** [str.startswith], [in] and [str.replace] (occurrences from the left, which do not overlap). *)
Fixpoint starts_with (p s : text) : bool :=
  match p, s with
  | [], _ => true
  | a :: p', x :: s' => Ascii.eqb a x && starts_with p' s'
  | _, _ => false
  end.
Fixpoint contains (p s : text) : bool := starts_with p s || match s with [] => false | _ :: s' => contains p s' end.
Fixpoint replace_from (p q : text) (skip : nat) (s : text) {struct s} : text :=
  match s with
  | [] => []
  | x :: s' =>
      match skip with
      | S k => replace_from p q k s'
      | O => if starts_with p s then q ++ replace_from p q (length p - 1) s' else x :: replace_from p q 0 s'
      end
  end.
Definition replace (p q s : text) : text := replace_from p q 0 s.

(** The k last decimal digits of a nonnegative integer, and all of them, as [str] gives them. *)
Definition digit (n : Z) : ascii := ascii_of_nat (48 + Z.to_nat n).
Fixpoint last_digits (k : nat) (n : Z) : text := match k with O => [] | S k' => last_digits k' (n / 10) ++ [digit (n mod 10)] end.
Fixpoint integer_loop (fuel : nat) (n : Z) : text :=
  match fuel with
  | O => [digit n]
  | S fuel' => if n <? 10 then [digit n] else integer_loop fuel' (n / 10) ++ [digit (n mod 10)]
  end.
Definition integer (n : Z) : text := integer_loop (Z.to_nat (Z.log2 n)) n.
(** [{:0w}] for a nonnegative integer. *)
Definition padded (w : nat) (n : Z) : text := repeat "0"%char (w - length (integer n)) ++ integer n.

(** [{:+.pE}] for a finite number, with p = digits - 1: it is rounded correctly to that many significant decimal digits, ties going
    to even ones.  (Simplified: numbers are reals, so minus zero is zero.) *)
Definition radix10 : radix := Build_radix 10 eq_refl.
Definition rounded (digits : nat) (x : R) : R := round radix10 (FLX_exp (Z.of_nat digits)) ZnearestE x.
Definition exponent (digits : nat) (x : R) : Z := if Req_bool (rounded digits x) 0 then 0 else mag radix10 (rounded digits x) - 1.
Definition mantissa (digits : nat) (x : R) : Z := Ztrunc (rounded digits x * bpow radix10 (Z.of_nat digits - 1 - exponent digits x)).
Definition point (s : text) : text := match s with c :: (_ :: _) as r => c :: "."%char :: r | _ => s end.
Definition scientific (digits : nat) (x : R) : text :=
  [if Rlt_bool x 0 then "-"%char else "+"%char] ++ point (last_digits digits (Z.abs (mantissa digits x))) ++
  ["E"%char; if exponent digits x <? 0 then "-"%char else "+"%char] ++ padded 2 (Z.abs (exponent digits x)).

(* ---------- basics.py ---------- *)

(** [format_number] when options.digits is positive.  basics.py 325-333. *)
Definition format_number (digits : nat) (number : flt) : text :=
  let formatted := centered_in (digits + 6)
    match number with Num x => scientific digits x | PInf => lit "+INF" | NInf => lit "-INF" | NaN => lit "+NAN" end in
  if contains (lit "NAN") formatted then replace (lit "+") (lit " ") formatted else formatted.
(** [format_se].  basics.py 336-343. *)
Definition format_se (digits : nat) (se : flt) : text :=
  let formatted := format_number digits se in
  match find (fun s => contains s formatted) [lit "NAN"; lit "-INF"; lit "+INF"] with
  | Some s => replace s (lit "(" ++ s ++ lit ")") formatted
  | None => lit "(" ++ formatted ++ lit ")"
  end.
(** [format_seconds] for what rounds to a nonnegative number.  basics.py 318-322. *)
Definition format_seconds (seconds : R) : text :=
  let n := ZnearestE seconds in
  padded 2 (n / 3600) ++ lit ":" ++ padded 2 (n mod 3600 / 60) ++ lit ":" ++ padded 2 (n mod 3600 mod 60).
(** [output_progress]: numbers of items that messages say are finished and times that have elapsed, given those after each item.
    basics.py 306-315. *)
Fixpoint progress_loop (next_minute : Z) (index : nat) (times : list R) : list (nat * R) :=
  match times with
  | [] => []
  | t :: times' =>
      if Rlt_bool (60 * IZR next_minute) t then (S index, t) :: progress_loop (Ztrunc (t / 60) + 1) (S index) times'
      else progress_loop next_minute (S index) times'
  end.
Definition output_progress (initial : R) (times : list R) : list (nat * R) := progress_loop (Ztrunc (initial / 60) + 1) 0 times.
