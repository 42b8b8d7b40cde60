(** Displayed numbers: how to read them. *)
From Coq Require Import Ascii String Reals ZArith List Arith Bool.
From Verif Require Import TableModel TableSpec.
Import ListNotations.
Local Open Scope Z_scope.

Definition is_digit (c : ascii) : bool := let n := nat_of_ascii c in (48 <=? n)%nat && (n <=? 57)%nat.
Fixpoint span (s : text) : text * text :=
  match s with x :: s' => if is_digit x then let (a, b) := span s' in (x :: a, b) else ([], s) | [] => ([], []) end.
Fixpoint value_from (a : Z) (s : text) : Z := match s with [] => a | c :: s' => value_from (10 * a + (Z.of_nat (nat_of_ascii c) - 48)) s' end.
(** The value of digits. *)
Definition value (s : text) : Z := value_from 0 s.
Definition sign_of (c : ascii) : Z := if Ascii.eqb c "-"%char then -1 else 1.
(** The number that is written in scientific notation, possibly between spaces. *)
Definition read_number (s : text) : option R :=
  match strip s with
  | sign :: s1 =>
      let (a, s2) := span s1 in
      let (b, s3) := match s2 with c :: r => if Ascii.eqb c "."%char then span r else ([], s2) | [] => ([], s2) end in
      match s3 with
      | e :: esign :: s4 =>
          let (ds, s5) := span s4 in
          match a, s5, Ascii.eqb e "E"%char with
          | [c], [], true => Some (IZR (sign_of sign * value (c :: b)) * powerRZ 10 (sign_of esign * value ds - Z.of_nat (length b)))%R
          | _, _, _ => None
          end
      | _ => None
      end
  | [] => None
  end.
(** The number of seconds that is written as hours, minutes and seconds. *)
Definition read_seconds (s : text) : option Z :=
  let (h, s1) := span s in
  match s1 with
  | c1 :: s2 => let (m, s3) := span s2 in
      match s3 with
      | c2 :: s4 => let (r, s5) := span s4 in
          match s5, Ascii.eqb c1 ":"%char && Ascii.eqb c2 ":"%char && (length m =? 2)%nat && (length r =? 2)%nat && (value m <? 60) && (value r <? 60) with
          | [], true => Some (value h * 3600 + value m * 60 + value r)
          | _, _ => None
          end
      | [] => None
      end
  | [] => None
  end.
(** Numbers with at most so many significant decimal digits. *)
Definition has_digits (digits : nat) (x : R) : Prop := exists m e : Z, Z.abs m < 10 ^ Z.of_nat digits /\ x = (IZR m * powerRZ 10 e)%R.
(** The first digit that is written. *)
Definition first_digit (s : text) : option Z := match strip s with _ :: c :: _ => Some (value [c]) | _ => None end.
