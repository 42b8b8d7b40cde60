(** Proofs about absorption of groups that are nested. *)
Set Warnings "-notation-overridden,-ambiguous-paths".
From Coq Require Import List ZArith.
From mathcomp Require Import all_ssreflect all_algebra.
From Verif Require Import EffectsModel EffectsSpec EffectsProofs EffectsGroups AbsorbSpec AbsorbProofs.
Set Implicit Arguments.
Unset Strict Implicit.
Unset Printing Implicit Defensive.
Import Order.TTheory GRing.Theory Num.Theory.
Local Open Scope ring_scope.

Section Linear.
  Context {F : realFieldType}.
  Lemma redundant N E E' (A : 'M[F]_N) (D : 'M[F]_(N, E)) (D' : 'M[F]_(N, E')) C : D' = D *m C ->
    residualizes A (row_mx D' D) <-> residualizes A D.
  Proof.
    move=> ->. split=> -[[B HB] O].
    - split.
      + exists (C *m usubmx B + dsubmx B) => y. rewrite HB -{1}[B]vsubmxK mul_col_mx mul_row_col mulmxDl mulmxDr !mulmxA. by [].
      + move=> y. have := O y. rewrite tr_row_mx mul_col_mx => H. by rewrite -[LHS](col_mxKd ((D *m C)^T *m (A *m y))) H linear0.
    - split.
      + exists (col_mx 0 B) => y. by rewrite HB mul_col_mx mul_row_col mul0mx mulmx0 add0r.
      + move=> y. by rewrite tr_row_mx mul_col_mx O trmx_mul -mulmxA O mulmx0 col_mx0.
  Qed.

  Lemma factors N G (group : 'I_N -> 'I_G) T (f : 'I_N -> T) (t0 : T) : (forall n m, group n = group m -> f n = f m) ->
    exists h : 'I_G -> T, forall n, f n = h (group n).
  Proof.
    move=> H. exists (fun g => match [pick n | group n == g] with Some n => f n | None => t0 end) => n.
    case: pickP => [m /eqP E|/(_ n)]; last by rewrite eqxx. by apply: H.
  Qed.

  Lemma coarser N G G' (fine : 'I_N -> 'I_G) (coarse : 'I_N -> 'I_G') : (forall n m, fine n = fine m -> coarse n = coarse m) ->
    exists C, indicators F coarse = indicators F fine *m C.
  Proof.
    move=> H. have [h Hh] := @factors N G fine ('rV[F]_G') (fun n => row n (indicators F coarse)) 0
      (fun n m E => ltac:(by apply/rowP => g; rewrite !mxE (H _ _ E))).
    exists (\matrix_(g, g') h g 0 g'). apply/matrixP => n g'. have := congr1 (fun r : 'rV[F]_G' => r 0 g') (Hh n). rewrite mxE => ->.
    have := indicators_column fine (\col_g h g 0 g') n. rewrite [in RHS]mxE => <-. rewrite !mxE. apply: eq_bigr => g _. by rewrite !mxE.
  Qed.

  Lemma nested_groups N G G' (A : 'M[F]_N) (fine : 'I_N -> 'I_G) (coarse : 'I_N -> 'I_G') :
    (forall n m, fine n = fine m -> coarse n = coarse m) ->
    residualizes A (row_mx (indicators F coarse) (indicators F fine)) <-> residualizes A (indicators F fine).
  Proof. move=> H. have [C HC] := coarser H. exact: redundant HC. Qed.

  Lemma constant_within N G (A : 'M[F]_N) (group : 'I_N -> 'I_G) (x : 'cV[F]_N) : residualizes A (indicators F group) ->
    (forall n m, group n = group m -> x n 0 = x m 0) -> A *m x = 0.
  Proof.
    move=> R H. have [h Hh] := @factors N G group F (fun n => x n 0) 0 H.
    have -> : x = indicators F group *m (\col_g h g). { apply/colP => n. by rewrite indicators_column mxE Hh. }
    by rewrite mulmxA (res_zero R) mul0mx.
  Qed.
End Linear.

(** Groups of terms. *)
Lemma groups_same d N (t : term) G (group : 'I_N -> 'I_G) ids : t <> nil -> (forall f, List.In f t -> absorbable d N f) ->
  term_ids d t = Some ids -> groups ids group -> forall n m : 'I_N, group n = group m <-> same_effect d t n m.
Proof.
  move=> T H E Q n m. have [i [Ei [_ S1]]] := term_ids_some d N t T H. rewrite E in Ei. case: Ei => Ei. subst i.
  apply: (iff_trans (Q n m)). exact: (S1 n m (elimT ssrnat.ltP (ltn_ord n)) (elimT ssrnat.ltP (ltn_ord m))).
Qed.
Lemma groups_nested d N (t t' : term) G G' (group : 'I_N -> 'I_G) (group' : 'I_N -> 'I_G') ids ids' : t <> nil -> t' <> nil ->
  (forall f, List.In f t -> absorbable d N f) -> (forall f, List.In f t' -> absorbable d N f) ->
  (forall v, List.In v (names t') -> List.In v (names t)) ->
  term_ids d t = Some ids -> term_ids d t' = Some ids' -> groups ids group -> groups ids' group' ->
  forall n m, group n = group m -> group' n = group' m.
Proof.
  move=> T T' H H' I E E' Q Q' n m /(groups_same T H E Q) S1. apply/(groups_same T' H' E' Q') => v V. by apply: S1; apply: I.
Qed.
Lemma groups_exist N (ids : list (list Z)) : exists (group : 'I_N -> 'I_N), groups ids group.
Proof.
  pose same n m := if list_eq_dec Z.eq_dec (List.nth n ids nil) (List.nth m ids nil) then true else false.
  have SP n m : reflect (List.nth n ids nil = List.nth m ids nil) (same n m).
  { rewrite /same. case: (list_eq_dec _ _ _) => H; by constructor. }
  exists (fun n : 'I_N => odflt n [pick m : 'I_N | same m n]) => n m. split.
  - case: pickP => [a /SP A|/(_ n) /SP //]. case: pickP => [b /SP B|/(_ m) /SP //].
    move=> /= E. by rewrite -A -B E.
  - move=> E. have X : [pick k : 'I_N | same k n] = [pick k : 'I_N | same k m].
    { apply: eq_pick => k. apply/SP/SP; by rewrite E. }
    rewrite X. by case: pickP => [b //|/(_ m) /SP //].
Qed.
