(** Property C142: formulas with fixed effects. *)
Set Warnings "-notation-overridden,-ambiguous-paths".
From Coq Require Import List ZArith String.
From mathcomp Require Import all_ssreflect all_algebra.
From Verif Require Import EffectsModel EffectsSpec EffectsProofs EffectsGroups EffectsLinear EffectsWitness AbsorbSpec.
Set Implicit Arguments.
Unset Strict Implicit.
Unset Printing Implicit Defensive.
Import GRing.Theory Num.Theory.
Local Open Scope ring_scope.

(** A formula is accepted if and only if some of its terms remain, at most one of which is constant, and absorbed terms are not constant.
    Terms are those that were written, except that intercepts are never absorbed, and dropped if anything is absorbed. *)
Theorem C142_formulas formula absorb f :
  let kept := fun t : term => t <> intercept in
  (configure formula absorb = Some f <->
   f_absorbed f = (if absorb is Some a then List.filter (fun t => ~~ is_intercept t) a else nil) /\
   f_terms f = (if f_absorbed f is nil then formula else List.filter (fun t => ~~ is_intercept t) formula) /\
   f_terms f <> nil /\ (List.length (List.filter without_variables (f_terms f)) <= 1)%N /\ forall t, List.In t (f_absorbed f) -> without_variables t = false) /\
  (configure formula absorb = Some f -> f_absorbed f <> nil -> forall t, List.In t (f_terms f) <-> List.In t formula /\ kept t).
Proof.
  have -> : without_variables = constant by symmetry; exact constant_spec.
  move=> kept. have IK t : ~~ is_intercept t <-> kept t. { rewrite /kept /intercept. by case: t => [|? ?]; split=> // /(_ erefl). }
  split; [split|].
  - move=> /configured [A [T [NE [L [C _]]]]]. do 3 (split; first by []). split; first by apply/ssrnat.leP. by [].
  - move=> [A [T [NE [L C]]]].
    have := @configures formula absorb. cbv zeta. rewrite /without_intercept.
    rewrite A in T C. rewrite -/(without_intercept formula) in T *.
    move=> H. move: (H ltac:(by rewrite -T) ltac:(apply/ssrnat.leP; by rewrite -T) C) => ->. rewrite -T -A. by case: (f).
  - move=> /configured [A [T _]] N t. rewrite T. case E : (f_absorbed f) => [|a l]; first by rewrite E in N.
    rewrite /without_intercept List.filter_In. split=> -[I K]; split=> //; by apply/IK.
Qed.
Print Assumptions C142_formulas.

(** There is an ID for each absorbed term and row, and rows have the same ID if and only if all variables of the term have the same values. *)
Theorem C142_ids d N f : f_absorbed f <> nil -> (forall t, List.In t (f_absorbed f) -> t <> nil) ->
  (forall t, List.In t (f_absorbed f) -> forall g, List.In g t -> absorbable d N g) ->
  exists ids, build_ids d f = Some ids /\ List.length ids = List.length (f_absorbed f) /\
  (forall k, lt k (List.length ids) -> List.length (List.nth k ids nil) = N /\
   forall n m, lt n N -> lt m N ->
   (List.nth n (List.nth k ids nil) nil = List.nth m (List.nth k ids nil) nil <-> same_effect d (List.nth k (f_absorbed f) nil) n m)).
Proof. exact: ids_built. Qed.
Print Assumptions C142_ids.

(** Nothing else can be absorbed: every variable exists and is categorical, or marked as such. *)
Theorem C142_categorical d f ids : build_ids d f = Some ids ->
  forall t g, List.In t (f_absorbed f) -> List.In g t ->
  exists v c, d v = Some c /\ (g = Marked v \/ g = Plain v /\ categorical c = true).
Proof. exact: ids_categorical. Qed.
Print Assumptions C142_categorical.

(** Columns that are too short for the first one are refused, unless they have a single row. *)
Theorem C142_lengths columns ids : interact_ids columns = Some ids -> forall first, hd_error columns = Some first ->
  List.length ids = List.length first /\
  ((forall c, List.In c columns -> le (List.length first) (List.length c)) \/
   exists c, List.In c columns /\ List.length c = 1%N /\ ids = repeat (List.nth 0 ids nil) (List.length first)).
Proof. exact: ids_lengths. Qed.
Print Assumptions C142_lengths.

(** Absorbing effects of some variables is redundant if interactions of them with other variables are absorbed, too: residuals are the same
    with or without these effects. *)
Theorem C142_nested (F : realFieldType) d N (t t' : term) G G' (group : 'I_N -> 'I_G) (group' : 'I_N -> 'I_G') ids ids' (A : 'M[F]_N) :
  t <> nil -> t' <> nil -> (forall f, List.In f t -> absorbable d N f) -> (forall f, List.In f t' -> absorbable d N f) ->
  (forall v, List.In v (names t') -> List.In v (names t)) ->
  term_ids d t = Some ids -> term_ids d t' = Some ids' -> groups ids group -> groups ids' group' ->
  residualizes A (row_mx (indicators F group') (indicators F group)) <-> residualizes A (indicators F group).
Proof. move=> T T' H H' I E E' Q Q'. apply: nested_groups. exact: (groups_nested T T' H H' I E E' Q Q'). Qed.
Print Assumptions C142_nested.

(** Any function of absorbed variables is absorbed: what does not vary among rows with the same values becomes zero.  In particular, dropping
    intercepts is harmless. *)
Theorem C142_collinear (F : realFieldType) d N (t : term) G (group : 'I_N -> 'I_G) ids (A : 'M[F]_N) :
  t <> nil -> (forall f, List.In f t -> absorbable d N f) -> term_ids d t = Some ids -> groups ids group ->
  residualizes A (indicators F group) ->
  (forall x : 'cV[F]_N, (forall n m : 'I_N, same_effect d t n m -> x n 0 = x m 0) -> A *m x = 0) /\ A *m const_mx 1 = 0 :> 'cV[F]_N.
Proof.
  move=> T H E Q R. have G1 (x : 'cV[F]_N) : (forall n m : 'I_N, same_effect d t n m -> x n 0 = x m 0) -> A *m x = 0.
  { move=> X. apply: (constant_within R) => n m K. apply: X. exact: (proj1 (groups_same T H E Q n m) K). }
  split; first exact: G1. apply: G1 => n m _. by rewrite !mxE.
Qed.
Print Assumptions C142_collinear.

(** Formulas of fixed effects of firms, and of firms and years: intercepts are dropped, and firms are redundant. *)
Example C142_applies :
  configure formula_example (Some absorb_example) = Some formulation_example /\
  build_ids panel formulation_example = Some panel_ids /\
  (forall t, List.In t (f_absorbed formulation_example) -> t <> nil /\ forall g, List.In g t -> absorbable panel 4 g) /\
  f_absorbed formulation_example = [:: firm_effects; firm_year_effects] /\
  (forall v, List.In v (names firm_effects) -> List.In v (names firm_year_effects)) /\
  (forall N ids, exists group : 'I_N -> 'I_N, groups ids group).
Proof.
  split; first by []. split; first by []. split; first exact: panel_absorbable. split; first by [].
  split; first exact: firms_nested. exact: groups_exist.
Qed.
