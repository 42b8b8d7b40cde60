(** Effective numbers of draws when weights are in a range. *)
From Coq Require Import Reals Lra Lia List Arith.
From Verif Require Import Base SchedModel SchedProofs DiagModel DiagSpec DiagProofs.
Import ListNotations.
Local Open Scope R_scope.

Lemma squares_below w a b : (forall x, In x w -> a <= x <= b) -> power_sum 2 w <= (a + b) * power_sum 1 w - INR (List.length w) * (a * b).
Proof.
  induction w as [|x w IH]; intro H; [cbn; lra|]. specialize (IH (fun y Hy => H y (or_intror Hy))). destruct (H x (or_introl eq_refl)) as [A B].
  unfold power_sum in *. cbn [fold_right List.length] in *. rewrite S_INR. assert (0 <= (x - a) * (b - x)) by (apply Rmult_le_pos; lra).
  set (p := fold_right (fun x acc => x ^ 2 + acc) 0 w) in *. set (q := fold_right (fun x acc => x ^ 1 + acc) 0 w) in *. set (n := INR (List.length w)) in *. clearbody p q n.
  replace (x ^ 2 + p) with (x * x + p) by ring. replace (x ^ 1 + q) with (x + q) by ring. lra.
Qed.
Lemma kantorovich w a b : w <> [] -> 0 < a -> (forall x, In x w -> a <= x <= b) -> 4 * a * b / (a + b) ^ 2 * INR (List.length w) <= effective_draws w.
Proof.
  intros N A H. assert (P : forall x, In x w -> 0 < x) by (intros x Hx; specialize (H x Hx); lra). assert (B : 0 < b) by (destruct w as [|x w]; [contradiction N; reflexivity|]; specialize (H x (or_introl eq_refl)); lra).
  assert (S := squares_below w a b H). assert (p2 := power_positive w 2 N P). assert (n0 := length_pos w N). unfold effective_draws, weight_sum.
  set (p := power_sum 2 w) in *. set (q := power_sum 1 w) in *. set (n := INR (List.length w)) in *. clearbody p q n.
  assert (AB : 0 < (a + b) ^ 2) by (apply pow_lt; lra).
  replace (4 * a * b / (a + b) ^ 2 * n) with (4 * a * b * n / (a + b) ^ 2) by (field; lra). apply below_div; [exact AB|exact p2|].
  assert (M : 0 < 4 * a * b * n) by (repeat apply Rmult_lt_0_compat; lra).
  apply Rle_trans with (4 * a * b * n * ((a + b) * q - n * (a * b))); [apply Rmult_le_compat_l; lra|].
  assert (Q := pow2_ge_0 ((a + b) * q - 2 * (n * (a * b)))). lra.
Qed.
