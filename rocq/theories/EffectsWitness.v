(** Fixed effects of firms, and of firms and years. *)
From Coq Require Import List ZArith String.
From Verif Require Import EffectsModel EffectsSpec.
Import ListNotations.
Local Open Scope string_scope.
Local Open Scope list_scope.
Local Open Scope Z_scope.

Definition panel : data := fun v =>
  if String.eqb v "firm" then Some (mk_column true [1; 1; 2; 2])
  else if String.eqb v "year" then Some (mk_column false [7; 8; 7; 7])
  else None.
Definition firm_effects : term := [Plain "firm"].
Definition firm_year_effects : term := [Plain "firm"; Marked "year"].
Definition formula_example : list term := [intercept; [Plain "x"]].
Definition absorb_example : list term := [intercept; firm_effects; firm_year_effects].
Definition formulation_example : formulation := mk_formulation [[Plain "x"]] [firm_effects; firm_year_effects].
Definition panel_ids : list (list (list Z)) := [[[1]; [1]; [2]; [2]]; [[1; 7]; [1; 8]; [2; 7]; [2; 7]]].

Lemma panel_absorbable t : In t (f_absorbed formulation_example) -> t <> [] /\ forall g, In g t -> absorbable panel 4 g.
Proof.
  intros [<-|[<-|[]]]; (split; [discriminate|]); intros g.
  - intros [<-|[]]. exists "firm", (mk_column true [1; 1; 2; 2]). cbn. auto.
  - intros [<-|[<-|[]]].
    + exists "firm", (mk_column true [1; 1; 2; 2]). cbn. auto.
    + exists "year", (mk_column false [7; 8; 7; 7]). cbn. auto.
Qed.
Lemma firms_nested v : In v (names firm_effects) -> In v (names firm_year_effects).
Proof. intros [<-|[]]. left. reflexivity. Qed.
(** Firms alone are no formula without other terms, years must be marked, and an absorbed intercept is not absorbed. *)
Lemma refused_examples : configure [intercept] (Some [firm_effects]) = None /\
  build_ids panel (mk_formulation [] [[Plain "year"]]) = None /\
  configure [intercept] (Some [intercept]) = Some (mk_formulation [intercept] []).
Proof. split; [reflexivity|]. split; reflexivity. Qed.
