(** Properties of demographics: C136. *)
From Coq Require Import Reals List Bool Arith Lia Lra String.
From Verif Require Import FltModel DemogModel DemogSpec DemogProofs.
Import ListNotations.

(** Standard demographics: if each variable has its own field, and values are finite, demographics are the formulation's columns. *)
Theorem C136_standard f I max_J d j : well_formed f -> (forall n, In n (names f) -> has d n) ->
  (forall i k, (i < I)%nat -> (k < List.length (columns f))%nat -> ffin (nth k (columns f) (fun _ => NaN) (value d j i)) = true) ->
  exists m, agent_demographics f I max_J d = Standard m /\ forall i k, m i k = nth k (columns f) (fun _ => NaN) (value d j i).
Proof.
  intros W H HF. destruct (proj2 (load_all_has d None (names f))) as [m Em]; [intros n Hn; apply load_has_none; now apply H|].
  assert (E : forall i k, design f m i k = nth k (columns f) (fun _ => NaN) (value d j i)).
  { intros i k. apply (design_value f d None j); [exact W|exact Em|now left]. }
  exists (design f m). split; [|exact E]. unfold agent_demographics, build_demographics. rewrite (build_standard _ _ _ _ Em).
  assert (F : any_entry (fun x => negb (ffin x)) I (List.length (columns f)) (design f m) = false).
  { apply any_entry_false. intros i k Hi Hk. now rewrite E, HF. }
  assert (G : any_entry fnan I (List.length (columns f)) (design f m) = false).
  { apply any_entry_false. intros i k Hi Hk. apply finite_not_nan. rewrite any_entry_false in F. now apply F. }
  rewrite G, F. reflexivity.
Qed.
Print Assumptions C136_standard.

(** Infinite standard demographics are an error. *)
Theorem C136_infinite f I max_J d j i k : well_formed f -> (forall n, In n (names f) -> has d n) ->
  (forall i k, (i < I)%nat -> (k < List.length (columns f))%nat -> fnan (nth k (columns f) (fun _ => NaN) (value d j i)) = false) ->
  (i < I)%nat -> (k < List.length (columns f))%nat -> ffin (nth k (columns f) (fun _ => NaN) (value d j i)) = false ->
  agent_demographics f I max_J d = NotFinite.
Proof.
  intros W H HN Hi Hk HF. destruct (proj2 (load_all_has d None (names f))) as [m Em]; [intros n Hn; apply load_has_none; now apply H|].
  assert (E : forall i k, design f m i k = nth k (columns f) (fun _ => NaN) (value d j i)).
  { intros a b. apply (design_value f d None j); [exact W|exact Em|now left]. }
  unfold agent_demographics, build_demographics. rewrite (build_standard _ _ _ _ Em).
  assert (G : any_entry fnan I (List.length (columns f)) (design f m) = false).
  { apply any_entry_false. intros a b Ha Hb. rewrite E. now apply HN. }
  rewrite G. assert (F : any_entry (fun x => negb (ffin x)) I (List.length (columns f)) (design f m) = true).
  { apply any_entry_true. exists i, k. rewrite E, HF. repeat split; assumption. }
  now rewrite F.
Qed.
Print Assumptions C136_infinite.

(** Product-specific demographics: slice j has the columns at variables' own fields or, for variables without, at fields with index j. *)
Theorem C136_product_specific f I max_J d l : well_formed f -> agent_demographics f I max_J d = Stacked l ->
  List.length l = max_J /\
  (forall j i k, (j < max_J)%nat -> nth j l (fun _ _ => NaN) i k = nth k (columns f) (fun _ => NaN) (value d j i)) /\
  (forall j n, (j < max_J)%nat -> In n (names f) -> has d n \/ has d (indexed n j)).
Proof.
  intros W E. unfold agent_demographics, build_demographics in E.
  destruct (build_matrix f I d None false) as [m|].
  { destruct (any_entry _ _ _ _) in E; discriminate. }
  assert (Q : stack f I d 0 max_J [] = Stacked l) by (destruct (stack f I d 0 max_J []) as [m| | | |]; try discriminate E; [|exact E]; destruct (any_entry _ _ _ _) in E; discriminate E).
  destruct (stack_stacked _ _ _ _ _ _ _ Q) as (l' & -> & HL & H). cbn [app]. repeat split.
  - exact HL.
  - intros j i k Hj. destruct (H j Hj) as (m & Em & ->). cbn in Em. apply (design_value f d (Some j) j); [exact W|exact Em|now right].
  - intros j n Hj Hn. destruct (H j Hj) as (m & Em & _). cbn in Em. apply load_has. exact (load_all_inv _ _ _ _ Em n Hn).
Qed.
Print Assumptions C136_product_specific.

(** They are built if some variable has no field of its own and all such variables have fields with all indices. *)
Theorem C136_product_specific_built f I max_J d n : In n (names f) -> ~ has d n ->
  (forall j n, (j < max_J)%nat -> In n (names f) -> has d n \/ has d (indexed n j)) ->
  exists l, agent_demographics f I max_J d = Stacked l.
Proof.
  intros Hn Hh H. assert (E : load_all d None (names f) = None).
  { apply load_all_none. exists n. split; [exact Hn|]. destruct (load d None n) eqn:Q; [|reflexivity].
    exfalso. apply Hh. apply load_has_none. now exists c. }
  unfold agent_demographics, build_demographics. rewrite (build_unloaded _ _ _ E).
  destruct (stack_total f I d max_J 0 []) as [l El].
  - intros j Hj. apply load_all_has. intros k Hk. apply load_has. now apply H.
  - exists l. now rewrite El.
Qed.
Print Assumptions C136_product_specific_built.

(** Otherwise there is an error, which names the first product index without all fields unless this is the first one. *)
Theorem C136_errors f I max_J d j n : (j < max_J)%nat -> In n (names f) -> ~ has d n -> ~ has d (indexed n j) ->
  (forall j' n, (j' < j)%nat -> In n (names f) -> has d n \/ has d (indexed n j')) ->
  agent_demographics f I max_J d = if Nat.eqb j 0 then LoadError else MissingProduct j.
Proof.
  intros Hj Hn Hh Hi H. assert (E : load_all d None (names f) = None).
  { apply load_all_none. exists n. split; [exact Hn|]. destruct (load d None n) eqn:Q; [|reflexivity].
    exfalso. apply Hh. apply load_has_none. now exists c. }
  unfold agent_demographics, build_demographics. rewrite (build_unloaded _ _ _ E).
  rewrite (stack_fails f I d max_J 0 [] j); cbn [plus].
  - now destruct (Nat.eqb j 0).
  - exact Hj.
  - intros k Hk. apply load_all_has. intros a Ha. apply load_has. now apply H.
  - apply load_all_none. exists n. split; [exact Hn|]. destruct (load d (Some j) n) eqn:Q; [|reflexivity].
    exfalso. destruct (proj1 (load_has d j n)) as [K|K]; [now exists c|now apply Hh|now apply Hi].
Qed.
Print Assumptions C136_errors.

(** Utilities are the documented ones, whether demographics are standard or product-specific. *)
Theorem C136_utilities K2 D sigma pi nodes transform t X2 dem J max_J m l i j : (j < J <= max_J)%nat ->
  (forall k x, (k < K2)%nat -> transform k (Num x) = Num (t k x)) ->
  let utility o := mu K2 D (fun k l => Num (sigma k l)) (fun k d => Num (pi k d)) (fun i l => Num (nodes i l)) transform (fun j k => Num (X2 j k))
    (market_demographics J o) i j in
  ((forall d, (d < D)%nat -> m i d = Num (dem i d j)) -> utility (Standard m) = Num (documented_mu K2 D sigma pi nodes t X2 dem i j)) /\
  ((forall d, (d < D)%nat -> nth j l (fun _ _ => NaN) i d = Num (dem i d j)) ->
   utility (Stacked l) = Num (documented_mu K2 D sigma pi nodes t X2 dem i j)).
Proof.
  intros [Hj HJ] T utility. split; intros H; apply mu_documented; try exact T.
  - exact H.
  - intros d Hd. rewrite demographic_firstn by exact Hj. apply H. exact Hd.
Qed.
Print Assumptions C136_utilities.

(** In a market with J products, only demographics with the product's own index matter for its utility, so that whatever is
    in fields with other indices does not. *)
Theorem C136_other_indices K2 sigma pi nodes transform X2 f I max_J d d' l l' J i j : well_formed f ->
  agent_demographics f I max_J d = Stacked l -> agent_demographics f I max_J d' = Stacked l' -> (j < J <= max_J)%nat ->
  (forall n, In n (names f) -> value d j i n = value d' j i n) ->
  mu K2 (List.length (columns f)) sigma pi nodes transform X2 (market_demographics J (Stacked l)) i j =
  mu K2 (List.length (columns f)) sigma pi nodes transform X2 (market_demographics J (Stacked l')) i j.
Proof.
  intros W E E' [Hj HJ] H. apply mu_demographic. intros k _. rewrite !demographic_firstn by exact Hj. cbn.
  destruct (C136_product_specific _ _ _ _ _ W E) as (_ & S1 & _). destruct (C136_product_specific _ _ _ _ _ W E') as (_ & S2 & _).
  rewrite S1, S2 by lia. now apply nth_default_agrees.
Qed.
Print Assumptions C136_other_indices.

(** Product-specific demographics that are the same for all products are like standard demographics. *)
Theorem C136_same_for_all K2 D sigma pi nodes transform X2 m max_J J i j : (j < J <= max_J)%nat ->
  mu K2 D sigma pi nodes transform X2 (market_demographics J (Stacked (repeat m max_J))) i j =
  mu K2 D sigma pi nodes transform X2 (Standard m) i j.
Proof.
  intros [Hj HJ]. apply mu_demographic. intros k _. rewrite demographic_firstn by exact Hj. cbn.
  rewrite nth_indep with (d' := m) by (rewrite repeat_length; lia). now rewrite nth_repeat.
Qed.
Print Assumptions C136_same_for_all.

(** Missing values of standard demographics are not an error: the first attempt fails because of them, and
    the second, for product-specific demographics, ignores them. *)
Theorem C136_missing_values f I max_J d j i k : well_formed f -> (forall n, In n (names f) -> has d n) ->
  (i < I)%nat -> (k < List.length (columns f))%nat -> nth k (columns f) (fun _ => NaN) (value d j i) = NaN ->
  exists m, agent_demographics f I max_J d = Stacked (repeat m max_J) /\
  forall i k, m i k = nth k (columns f) (fun _ => NaN) (value d j i).
Proof.
  intros W H Hi Hk HN. destruct (proj2 (load_all_has d None (names f))) as [m Em]; [intros n Hn; apply load_has_none; now apply H|].
  assert (E : forall i k, design f m i k = nth k (columns f) (fun _ => NaN) (value d j i)).
  { intros a b. apply (design_value f d None j); [exact W|exact Em|now left]. }
  exists (design f m). split; [|exact E]. unfold agent_demographics, build_demographics. rewrite (build_standard _ _ _ _ Em).
  assert (G : any_entry fnan I (List.length (columns f)) (design f m) = true).
  { apply any_entry_true. exists i, k. rewrite E, HN. repeat split; assumption. }
  rewrite G, (stack_constant f I d m H Em). reflexivity.
Qed.
Print Assumptions C136_missing_values.

Definition income : formulation := {| names := ["income"%string]; columns := [fun v => v "income"%string] |}.
Definition unknown_income : data := [("income"%string, fun i => if Nat.eqb i 0 then Num 1 else NaN)].
Lemma income_well_formed : well_formed income.
Proof. intros c [<-|[]] v v' H. apply H. now left. Qed.
Theorem C136_missing_values_refuted : ~ (forall f I max_J d j i k, well_formed f -> (forall n, In n (names f) -> has d n) ->
  (i < I)%nat -> (k < List.length (columns f))%nat -> ffin (nth k (columns f) (fun _ => NaN) (value d j i)) = false ->
  agent_demographics f I max_J d = NotFinite \/ agent_demographics f I max_J d = LoadError).
Proof.
  intros H. assert (A : forall n, In n (names income) -> has unknown_income n).
  { intros n [<-|[]]. eexists. reflexivity. }
  destruct (C136_missing_values income 2 3 unknown_income 0 1 0 income_well_formed A) as (m & E & _); [lia|cbn; lia|reflexivity|].
  destruct (H income 2 3 unknown_income 0 1 0 income_well_formed A)%nat as [K|K]; [lia|cbn; lia|reflexivity| |]; rewrite E in K; discriminate.
Qed.
Print Assumptions C136_missing_values_refuted.

Definition distances : data := [("distance0"%string, fun i => Num (INR i)); ("distance1"%string, fun i => Num 7); ("income"%string, fun i => Num 2)].
Definition distance_income : formulation :=
  {| names := ["distance"%string; "income"%string]; columns := [fun v => v "distance"%string; fun v => fmul (v "income"%string) (v "distance"%string)] |}.
Example C136_applies : well_formed distance_income /\ ~ has distances "distance" /\
  (forall j n, (j < 2)%nat -> In n (names distance_income) -> has distances n \/ has distances (indexed n j)) /\
  ~ has distances (indexed "distance" 2).
Proof.
  split; [|split; [|split]].
  - intros c [<-|[<-|[]]] v v' H; rewrite ?(H "distance"%string), ?(H "income"%string); cbn; auto.
  - intros [c E]. discriminate.
  - intros [|[|j]] n Hj [<-|[<-|[]]]; try lia; [right|left|right|left]; eexists; reflexivity.
  - intros [c E]. discriminate.
Qed.
(** One product-specific demographic, for two products and an agent, and a log-normal coefficient. *)
Example C136_utilities_applies : (1 < 2 <= 3)%nat /\
  (forall k x, (k < 1)%nat -> (fun _ y => match y with Num z => Num (exp z) | _ => NaN end) k (Num x) = Num ((fun _ => exp) k x)) /\
  (forall d, (d < 1)%nat -> nth 1 [(fun _ _ => Num 3); (fun _ _ => Num 7); (fun _ _ => NaN)] (fun _ _ => NaN) 0%nat d = Num ((fun _ _ j => 4 * INR j + 3)%R 0%nat d 1%nat)).
Proof.
  split; [lia|]. split; [reflexivity|]. intros d Hd. cbn. f_equal. lra.
Qed.
Example C136_standard_applies : (forall n, In n (names income) -> has distances n) /\
  (forall i k, (i < 3)%nat -> (k < List.length (columns income))%nat -> ffin (nth k (columns income) (fun _ => NaN) (value distances 0 i)) = true).
Proof.
  split.
  - intros n [<-|[]]. eexists. reflexivity.
  - intros i [|k] Hi Hk; [reflexivity|cbn in Hk; lia].
Qed.
