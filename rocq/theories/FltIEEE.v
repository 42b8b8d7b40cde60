(** [FltModel] agrees with IEEE 754 as formalized in Coq's standard library (Floats.SpecFloat) whenever
    an operand is zero, infinite, or NaN: the cases in which there is nothing to round.  Zeros lose their
    sign; division by a negative zero is therefore excluded. *)
From Coq Require Import ZArith Reals Lra Bool Floats.SpecFloat.
From Verif Require Import FltModel.
Local Open Scope R_scope.

(** The number that a nonzero finite float stands for. *)
Definition finite_value (s : bool) (m : positive) (e : Z) : R :=
  (if s then - IZR (Zpos m) else IZR (Zpos m)) * powerRZ 2 e.
Definition value (x : spec_float) : flt :=
  match x with
  | S754_zero _ => Num 0
  | S754_infinity s => if s then NInf else PInf
  | S754_nan => NaN
  | S754_finite s m e => Num (finite_value s m e)
  end.
Definition ordinary (x : spec_float) : Prop := exists s m e, x = S754_finite s m e.

Lemma value_pos m e : 0 < finite_value false m e.
Proof. unfold finite_value. apply Rmult_lt_0_compat; [apply IZR_lt; reflexivity|apply powerRZ_lt; lra]. Qed.
Lemma value_neg m e : finite_value true m e < 0.
Proof.
  unfold finite_value. assert (0 < IZR (Zpos m)) by (apply IZR_lt; reflexivity).
  assert (0 < powerRZ 2 e) by (apply powerRZ_lt; lra). nra.
Qed.

Lemma opp_value s m e : finite_value (negb s) m e = - finite_value s m e.
Proof. unfold finite_value. destruct s; cbn [negb]; ring. Qed.


Ltac decide_flt :=
  repeat match goal with
  | |- context [Rlt_dec ?a ?b] => destruct (Rlt_dec a b); try lra
  | |- context [Req_EM_T ?a ?b] => destruct (Req_EM_T a b); try lra
  end.

Theorem Flt_neg x : value (SFopp x) = fneg (value x).
Proof. destruct x as [s|s| |s m e]; try destruct s; cbn; try reflexivity; f_equal; try ring; [apply (opp_value true)|apply (opp_value false)]. Qed.
Print Assumptions Flt_neg.

Theorem Flt_add prec emax x y : ~ (ordinary x /\ ordinary y) -> value (SFadd prec emax x y) = fadd (value x) (value y).
Proof.
  intros N. destruct x as [s|s| |s m e], y as [s'|s'| |s' m' e']; try (exfalso; apply N; split; repeat eexists; fail);
    cbn -[finite_value]; try destruct s; try destruct s'; cbn -[finite_value]; try reflexivity; f_equal; lra.
Qed.
Print Assumptions Flt_add.

Theorem Flt_sub prec emax x y : ~ (ordinary x /\ ordinary y) -> value (SFsub prec emax x y) = fsub (value x) (value y).
Proof.
  intros N. destruct x as [s|s| |s m e], y as [s'|s'| |s' m' e']; try (exfalso; apply N; split; repeat eexists; fail);
    unfold fsub; cbn -[finite_value]; try destruct s; try destruct s'; cbn -[finite_value]; try reflexivity; f_equal; try lra;
    pose proof (opp_value true m' e'); pose proof (opp_value false m' e'); cbn [negb] in *; lra.
Qed.
Print Assumptions Flt_sub.

Theorem Flt_mul prec emax x y : ~ (ordinary x /\ ordinary y) -> value (SFmul prec emax x y) = fmul (value x) (value y).
Proof.
  intros N. destruct x as [s|s| |s m e], y as [s'|s'| |s' m' e']; try (exfalso; apply N; split; repeat eexists; fail);
    try pose proof (value_pos m e); try pose proof (value_neg m e); try pose proof (value_pos m' e'); try pose proof (value_neg m' e');
    try destruct s; try destruct s'; cbn -[finite_value]; unfold finf; decide_flt; try reflexivity; f_equal; ring.
Qed.
Print Assumptions Flt_mul.

Theorem Flt_div prec emax x y : ~ (ordinary x /\ ordinary y) -> y <> S754_zero true ->
  value (SFdiv prec emax x y) = fdiv (value x) (value y).
Proof.
  intros N NZ. destruct x as [s|s| |s m e], y as [s'|s'| |s' m' e']; try (exfalso; apply N; split; repeat eexists; fail);
    try pose proof (value_pos m e); try pose proof (value_neg m e); try pose proof (value_pos m' e'); try pose proof (value_neg m' e');
    try destruct s; try destruct s'; try congruence; cbn -[finite_value]; unfold finf; decide_flt; try reflexivity; f_equal; unfold Rdiv; ring.
Qed.
Print Assumptions Flt_div.

Theorem Flt_sqrt prec emax x : ~ ordinary x -> value (SFsqrt prec emax x) = fsqrt (value x).
Proof.
  intros N. destruct x as [s|s| |s m e]; try (exfalso; apply N; repeat eexists; fail); try destruct s; cbn; decide_flt;
    try reflexivity; f_equal; rewrite sqrt_0; reflexivity.
Qed.
Print Assumptions Flt_sqrt.

Theorem Flt_sqrt_negative prec emax m e : value (SFsqrt prec emax (S754_finite true m e)) = fsqrt (value (S754_finite true m e)).
Proof. pose proof (value_neg m e). cbn -[finite_value]. decide_flt. reflexivity. Qed.
Print Assumptions Flt_sqrt_negative.

(** Comparisons, for which sign and value of ordinary numbers matter only against each other. *)
Theorem Flt_compare x y : ~ (ordinary x /\ ordinary y) ->
  SFltb x y = fltb (value x) (value y) /\ SFeqb x y = feqb (value x) (value y) /\ SFleb x y = fleb (value x) (value y).
Proof.
  intros N. unfold fleb. destruct x as [s|s| |s m e], y as [s'|s'| |s' m' e']; try (exfalso; apply N; split; repeat eexists; fail);
    try pose proof (value_pos m e); try pose proof (value_neg m e); try pose proof (value_pos m' e'); try pose proof (value_neg m' e');
    try destruct s; try destruct s'; cbn -[finite_value]; unfold rltb, reqb; decide_flt; auto.
Qed.
Print Assumptions Flt_compare.

(** [np.isfinite]. *)
Theorem Flt_finite x : ffin (value x) = true <-> (x <> S754_nan /\ forall s, x <> S754_infinity s).
Proof.
  destruct x as [s|s| |s m e]; cbn; try (destruct s; cbn); split; intros H; try discriminate; try reflexivity;
    try (split; intros; discriminate); destruct H as [H1 H2]; try congruence; exfalso; eapply H2; reflexivity.
Qed.
Print Assumptions Flt_finite.
