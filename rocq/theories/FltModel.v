(** Floating point numbers with IEEE 754 special values and exact finite arithmetic.
    Rounding, overflow and signed zeros are not modelled: finite values are real numbers, and
    dividing a nonzero number by zero gives the infinity with the sign of the numerator.
    Used wherever pyblp branches on whether numbers are finite. *)
From Coq Require Import Reals List Bool Lra.
Import ListNotations.
Local Open Scope R_scope.

Inductive flt := Num (r : R) | PInf | NInf | NaN.

Definition ffin (x : flt) : bool := match x with Num _ => true | _ => false end.
Definition fnan (x : flt) : bool := match x with NaN => true | _ => false end.

Definition rltb (x y : R) : bool := if Rlt_dec x y then true else false.
Definition reqb (x y : R) : bool := if Req_EM_T x y then true else false.

(** [x < y]; comparisons with NaN are false. *)
Definition fltb (x y : flt) : bool :=
  match x, y with
  | Num a, Num b => rltb a b
  | NInf, Num _ | NInf, PInf | Num _, PInf => true
  | _, _ => false
  end.

(** [x == y] *)
Definition feqb (x y : flt) : bool :=
  match x, y with
  | Num a, Num b => reqb a b
  | PInf, PInf | NInf, NInf => true
  | _, _ => false
  end.

Definition fleb (x y : flt) : bool := fltb x y || feqb x y.

Definition fneg (x : flt) : flt :=
  match x with Num a => Num (- a) | PInf => NInf | NInf => PInf | NaN => NaN end.

Definition fadd (x y : flt) : flt :=
  match x, y with
  | NaN, _ | _, NaN => NaN
  | Num a, Num b => Num (a + b)
  | PInf, NInf | NInf, PInf => NaN
  | PInf, _ | _, PInf => PInf
  | NInf, _ | _, NInf => NInf
  end.

Definition fsub (x y : flt) : flt := fadd x (fneg y).

(** Infinity with the sign of a; zero times infinity is NaN. *)
Definition finf (a : R) : flt := if Rlt_dec 0 a then PInf else if Rlt_dec a 0 then NInf else NaN.

Definition fmul (x y : flt) : flt :=
  match x, y with
  | NaN, _ | _, NaN => NaN
  | Num a, Num b => Num (a * b)
  | Num a, PInf | PInf, Num a => finf a
  | Num a, NInf | NInf, Num a => finf (- a)
  | PInf, PInf | NInf, NInf => PInf
  | _, _ => NInf
  end.

Definition fdiv (x y : flt) : flt :=
  match x, y with
  | NaN, _ | _, NaN => NaN
  | Num a, Num b => if Req_EM_T b 0 then finf a else Num (a / b)
  | Num _, _ => Num 0
  | PInf, Num b => if Rlt_dec b 0 then NInf else PInf
  | NInf, Num b => if Rlt_dec b 0 then PInf else NInf
  | _, _ => NaN
  end.

Definition fsqrt (x : flt) : flt :=
  match x with
  | Num a => if Rlt_dec a 0 then NaN else Num (sqrt a)
  | PInf => PInf
  | _ => NaN
  end.

(** [np.minimum] and [np.maximum], which propagate NaN. *)
Definition fmin (x y : flt) : flt :=
  if fnan x || fnan y then NaN else if fltb y x then y else x.
Definition fmax (x y : flt) : flt :=
  if fnan x || fnan y then NaN else if fltb x y then y else x.

(** Vectors. *)
Definition fvec := list flt.
Definition vfin (x : fvec) : bool := forallb ffin x.
Fixpoint vzip (op : flt -> flt -> flt) (x y : fvec) : fvec :=
  match x, y with
  | a :: x', b :: y' => op a b :: vzip op x' y'
  | _, _ => []
  end.
Definition vsub : fvec -> fvec -> fvec := vzip fsub.
Definition vdot (x y : fvec) : flt := fold_right fadd (Num 0) (vzip fmul x y).
