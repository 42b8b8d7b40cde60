(** Lemmas about finite differences within evaluations. *)
From Coq Require Import Reals List Bool Arith Lia Lra.
From Verif Require Import Base FltModel ProgressModel ProgressSpec ProgressProofs BasicsModel DemandDeriv HessModel HessSpec.
Import ListNotations.
Local Open Scope R_scope.

(* ---------- Error of central differences ---------- *)

Lemma nonneg_from (f f1 : R -> R) a : (forall t, 0 <= t <= a -> derivable_pt_lim f t (f1 t)) -> f 0 = 0 ->
  (forall t, 0 <= t <= a -> 0 <= f1 t) -> forall t, 0 <= t <= a -> 0 <= f t.
Proof.
  intros D Z N t [H0 Ha]. destruct (Req_dec t 0) as [->|Ht]; [lra|].
  destruct (MVT_cor2 f f1 0 t) as [c [E Hc]]; [lra|intros c Hc; apply D; lra|].
  rewrite Z, !Rminus_0_r in E. rewrite E. apply Rmult_le_pos; [apply N; lra|lra].
Qed.

Lemma central_upper (f f1 f2 f3 : R -> R) a L : 0 <= a ->
  (forall t, Rabs t <= a -> derivable_pt_lim f t (f1 t) /\ derivable_pt_lim f1 t (f2 t) /\ derivable_pt_lim f2 t (f3 t) /\ Rabs (f3 t) <= L) ->
  f a - f (- a) - 2 * a * f1 0 <= L * a ^ 3 / 3.
Proof.
  intros Ha D.
  assert (DP : forall (g g' : R -> R), (forall t, Rabs t <= a -> derivable_pt_lim g t (g' t)) -> forall t, 0 <= t <= a ->
            derivable_pt_lim (fun t => g (- t)) t (- g' (- t))).
  { intros g g' Dg t Ht. replace (- g' (- t)) with (g' (- t) * - 1) by ring.
    apply (derivable_pt_lim_comp (fun t => - t) g).
    - replace (-1) with (- (1)) by ring. apply derivable_pt_lim_opp, derivable_pt_lim_id.
    - apply Dg. rewrite Rabs_Ropp, Rabs_pos_eq; lra. }
  assert (A : forall t, 0 <= t <= a -> Rabs t <= a /\ Rabs (- t) <= a) by (intros t Ht; rewrite Rabs_Ropp, Rabs_pos_eq; lra).
  set (p0 := fun t => L / 3 * (t * t * t) - ((f t - f (- t)) - 2 * f1 0 * t)).
  set (p1 := fun t => L * (t * t) - ((f1 t + f1 (- t)) - 2 * f1 0)).
  set (p2 := fun t => 2 * L * t - (f2 t - f2 (- t))).
  set (p3 := fun t => 2 * L - (f3 t + f3 (- t))).
  assert (I : forall t, derivable_pt_lim (fun t => t) t 1) by (intro; apply derivable_pt_lim_id).
  assert (SQ : forall t, derivable_pt_lim (fun t => t * t) t (1 * t + t * 1)) by (intro; apply (derivable_pt_lim_mult (fun t => t) (fun t => t)); apply I).
  assert (CU : forall t, derivable_pt_lim (fun t => t * t * t) t ((1 * t + t * 1) * t + t * t * 1))
    by (intro; apply (derivable_pt_lim_mult (fun t => t * t) (fun t => t)); [apply SQ|apply I]).
  assert (D0 : forall t, 0 <= t <= a -> derivable_pt_lim p0 t (p1 t)).
  { intros t Ht. destruct (A t Ht) as [A1 A2]. unfold p0.
    replace (p1 t) with (L / 3 * ((1 * t + t * 1) * t + t * t * 1) - ((f1 t - - f1 (- t)) - 2 * f1 0 * 1)) by (unfold p1; field).
    apply (derivable_pt_lim_minus (fun t => L / 3 * (t * t * t)) (fun t => (f t - f (- t)) - 2 * f1 0 * t)).
    - apply (derivable_pt_lim_scal (fun t => t * t * t)), CU.
    - apply (derivable_pt_lim_minus (fun t => f t - f (- t)) (fun t => 2 * f1 0 * t)); [|apply (derivable_pt_lim_scal (fun t => t)), I].
      apply (derivable_pt_lim_minus f (fun t => f (- t))); [apply D, A1|apply DP; [apply D|exact Ht]]. }
  assert (D1 : forall t, 0 <= t <= a -> derivable_pt_lim p1 t (p2 t)).
  { intros t Ht. destruct (A t Ht) as [A1 A2]. unfold p1.
    replace (p2 t) with (L * (1 * t + t * 1) - ((f2 t + - f2 (- t)) - 0)) by (unfold p2; field).
    apply (derivable_pt_lim_minus (fun t => L * (t * t)) (fun t => (f1 t + f1 (- t)) - 2 * f1 0)).
    - apply (derivable_pt_lim_scal (fun t => t * t)), SQ.
    - apply (derivable_pt_lim_minus (fun t => f1 t + f1 (- t)) (fun t => 2 * f1 0)); [|apply derivable_pt_lim_const].
      apply (derivable_pt_lim_plus f1 (fun t => f1 (- t))); [apply D, A1|apply DP; [apply D|exact Ht]]. }
  assert (D2 : forall t, 0 <= t <= a -> derivable_pt_lim p2 t (p3 t)).
  { intros t Ht. destruct (A t Ht) as [A1 A2]. unfold p2.
    replace (p3 t) with (2 * L * 1 - (f3 t - - f3 (- t))) by (unfold p3; field).
    apply (derivable_pt_lim_minus (fun t => 2 * L * t) (fun t => f2 t - f2 (- t))).
    - apply (derivable_pt_lim_scal (fun t => t)), I.
    - apply (derivable_pt_lim_minus f2 (fun t => f2 (- t))); [apply D, A1|apply DP; [apply D|exact Ht]]. }
  assert (N3 : forall t, 0 <= t <= a -> 0 <= p3 t).
  { intros t Ht. destruct (A t Ht) as [A1 A2]. unfold p3. destruct (D _ A1) as [_ [_ [_ B1]]]. destruct (D _ A2) as [_ [_ [_ B2]]].
    assert (C1 := Rle_abs (f3 t)). assert (C2 := Rle_abs (f3 (- t))). lra. }
  assert (Z2 : p2 0 = 0) by (unfold p2; rewrite Ropp_0; ring).
  assert (Z1 : p1 0 = 0) by (unfold p1; rewrite Ropp_0; ring).
  assert (Z0 : p0 0 = 0) by (unfold p0; rewrite Ropp_0; ring).
  assert (N0 := nonneg_from _ _ _ D0 Z0 (nonneg_from _ _ _ D1 Z1 (nonneg_from _ _ _ D2 Z2 N3)) a ltac:(lra)).
  unfold p0 in N0. replace (L * a ^ 3 / 3) with (L / 3 * (a * a * a)) by field. lra.
Qed.

Lemma central_error f theta j e d L : 0 < e -> smooth_along f theta j e d L -> Rabs (central f theta e j - d) <= L * e ^ 2 / 24.
Proof.
  intros He [f1 [f2 [f3 [E D]]]]. set (g := fun s => f (moved theta j s)) in *.
  assert (U := central_upper g f1 f2 f3 (e / 2) L ltac:(lra) D).
  assert (V := central_upper (fun s => - g s) (fun s => - f1 s) (fun s => - f2 s) (fun s => - f3 s) (e / 2) L ltac:(lra)).
  assert (V' : - g (e / 2) - - g (- (e / 2)) - 2 * (e / 2) * - f1 0 <= L * (e / 2) ^ 3 / 3).
  { apply V. intros t Ht. destruct (D t Ht) as [D1 [D2 [D3 B]]].
    split; [apply (derivable_pt_lim_opp g), D1|]. split; [apply (derivable_pt_lim_opp f1), D2|]. split; [apply (derivable_pt_lim_opp f2), D3|].
    rewrite Rabs_Ropp. exact B. }
  unfold central. fold (g (e / 2)). fold (g (- (e / 2))). rewrite <- E. clear V.
  assert (K : L * (e / 2) ^ 3 / 3 = L * e ^ 2 / 24 * e) by field. rewrite K in U, V'.
  replace ((g (e / 2) - g (- (e / 2))) / e - f1 0) with ((g (e / 2) - g (- (e / 2)) - e * f1 0) * / e) by (field; lra).
  assert (I : 0 < / e) by (apply Rinv_0_lt_compat; exact He).
  apply Rabs_le. split.
  - apply Rmult_le_reg_r with e; [exact He|]. rewrite Rmult_assoc, Rinv_l, Rmult_1_r by lra. lra.
  - apply Rmult_le_reg_r with e; [exact He|]. rewrite Rmult_assoc, Rinv_l, Rmult_1_r by lra. lra.
Qed.

Lemma central_affine n b (A : nat -> R) theta e j : (j < n)%nat -> e <> 0 ->
  central (fun x => b + sumn n (fun k => A k * x k)) theta e j = A j.
Proof.
  intros Hj He. unfold central.
  assert (E : forall t, sumn n (fun k => A k * moved theta j t k) = sumn n (fun k => A k * theta k) + A j * t).
  { intro t. clear He. induction n as [|n IH]; [lia|]. cbn [sumn]. unfold moved at 2. destruct (Nat.eqb_spec n j) as [->|N].
    - rewrite (sumn_ext j _ (fun k => A k * theta k)); [ring|]. intros k Hk. unfold moved. destruct (Nat.eqb_spec k j); [lia|reflexivity].
    - rewrite IH by lia. ring. }
  rewrite !E. field. exact He.
Qed.

(* ---------- Differences ---------- *)

Lemma bump_moved theta j t : bump theta j t = moved theta j t.
Proof. reflexivity. Qed.

Lemma vsub_numbers n f g : vsub (numbers n f) (numbers n g) = numbers n (fun i => f i - g i).
Proof. unfold vsub, numbers. generalize (seq 0 n). induction l as [|i l IH]; [reflexivity|]. cbn. rewrite IH. reflexivity. Qed.
Lemma divide_numbers n f e : e <> 0 -> map (fun x => fdiv x (Num e)) (numbers n f) = numbers n (fun i => f i / e).
Proof.
  intro He. unfold numbers. rewrite map_map. apply map_ext. intro i. cbn. unfold reqb. destruct (Req_EM_T e 0); [contradiction|reflexivity].
Qed.
Lemma nth_numbers n f i : (i < n)%nat -> nth i (numbers n f) NaN = Num (f i).
Proof.
  intro H. unfold numbers. rewrite (nth_indep _ NaN (Num (f 0%nat))) by (rewrite map_length, seq_length; exact H).
  rewrite (map_nth (fun i => Num (f i))), seq_nth by exact H. reflexivity.
Qed.

Lemma differences_values f e n g theta indices : e <> 0 ->
  (forall j h t, In j indices -> t = e / 2 \/ t = - (e / 2) -> snd (f h (moved theta j t)) = Some (numbers n (g (moved theta j t)))) ->
  forall h, snd (differences f e h theta indices) =
    Some (map (fun j => numbers n (fun i => central (fun x => g x i) theta e j)) indices).
Proof.
  intros He. induction indices as [|j l IH]; intros F h; [reflexivity|]. cbn [differences].
  change bump with moved. assert (F1 := F j h (e / 2) (or_introl eq_refl) (or_introl eq_refl)).
  destruct (f h (moved theta j (e / 2))) as [h1 [v1|]]; [|discriminate]. injection F1 as ->.
  assert (F2 := F j h1 (- (e / 2)) (or_introl eq_refl) (or_intror eq_refl)).
  destruct (f h1 (moved theta j (- (e / 2)))) as [h2 [v2|]]; [|discriminate]. injection F2 as ->.
  specialize (IH (fun k h t Hk => F k h t (or_intror Hk)) h2).
  destruct (differences f e h2 theta l) as [h3 [cols|]]; [|discriminate]. injection IH as ->.
  cbn [snd map]. rewrite vsub_numbers, divide_numbers by exact He. reflexivity.
Qed.

Lemma differences_raise f e theta indices j t : In j indices -> t = e / 2 \/ t = - (e / 2) ->
  (forall h, snd (f h (moved theta j t)) = None) -> forall h, snd (differences f e h theta indices) = None.
Proof.
  intros Hj Ht F. induction indices as [|k l IH]; intro h; [destruct Hj|]. cbn [differences]. change bump with moved.
  destruct Hj as [->|Hj].
  - destruct Ht as [->| ->].
    + specialize (F h). destruct (f h _) as [h1 [v1|]]; [discriminate|reflexivity].
    + destruct (f h _) as [h1 [v1|]]; [|reflexivity]. specialize (F h1). destruct (f h1 _) as [h2 [v2|]]; [discriminate|reflexivity].
  - destruct (f h _) as [h1 [v1|]]; [|reflexivity]. destruct (f h1 _) as [h2 [v2|]]; [|reflexivity].
    specialize (IH Hj h2). destruct (differences f e h2 theta l) as [h3 [cols|]]; [discriminate|reflexivity].
Qed.

(** An invariant of heaps. *)
Lemma differences_heap (I : heap -> Prop) f e theta indices :
  (forall h x, I h -> I (fst (f h x))) -> forall h, I h -> I (fst (differences f e h theta indices)).
Proof.
  intro F. induction indices as [|j l IH]; intros h H; [exact H|]. cbn [differences].
  assert (F1 := F h (bump theta j (e / 2)) H). destruct (f h (bump theta j (e / 2))) as [h1 [v1|]]; [|exact F1].
  assert (F2 := F h1 (bump theta j (- (e / 2))) F1). destruct (f h1 (bump theta j (- (e / 2)))) as [h2 [v2|]]; [|exact F2].
  assert (F3 := IH h2 F2). destruct (differences f e h2 theta l) as [h3 [cols|]]; exact F3.
Qed.

Lemma fadd_comm x y : fadd x y = fadd y x.
Proof. destruct x, y; cbn; try reflexivity. f_equal. ring. Qed.
Lemma symmetrized_comm cols i j : symmetrized cols i j = symmetrized cols j i.
Proof. unfold symmetrized. rewrite fadd_comm. reflexivity. Qed.

Lemma nth_columns {A} (n : nat) (f : nat -> list A) j : (j < n)%nat -> nth j (map f (seq 0 n)) [] = f j.
Proof.
  intro H. rewrite (nth_indep _ [] (f 0%nat)) by (rewrite map_length, seq_length; exact H). rewrite map_nth, seq_nth by exact H. reflexivity.
Qed.

Lemma symmetrized_values n (d : nat -> nat -> R) i j : (i < n)%nat -> (j < n)%nat ->
  symmetrized (map (fun j => numbers n (fun i => d i j)) (seq 0 n)) i j = Num ((d i j + d j i) / 2).
Proof.
  intros Hi Hj. unfold symmetrized, element. rewrite !nth_columns, !nth_numbers by assumption. cbn. unfold reqb.
  destruct (Req_EM_T 2 0); [lra|reflexivity].
Qed.

Lemma numbers_app n m f g : numbers n f ++ numbers m g = numbers (n + m) (fun i => if Nat.ltb i n then f i else g (i - n)%nat).
Proof.
  unfold numbers. rewrite seq_app, map_app. f_equal.
  - apply map_ext_in. intros i Hi. apply in_seq in Hi. destruct (Nat.ltb_spec i n); [reflexivity|lia].
  - cbn [plus]. assert (S : forall k, map (fun i => Num (g (i - n)%nat)) (seq (n + k) m) = map (fun i => Num (g i)) (seq k m)).
    { induction m as [|m IH]; intro k; [reflexivity|]. cbn. f_equal; [do 2 f_equal; lia|]. rewrite <- Nat.add_succ_r. apply IH. }
    specialize (S 0%nat). rewrite Nat.add_0_r in S. rewrite <- S. apply map_ext_in. intros i Hi. apply in_seq in Hi. destruct (Nat.ltb_spec i n); [lia|reflexivity].
Qed.
Lemma numbers_length n f : length (numbers n f) = n.
Proof. unfold numbers. rewrite map_length, seq_length. reflexivity. Qed.

(* ---------- Evaluations ---------- *)

Section Evaluate.
  Variable c : computation parameters.
  Variable cfg : configuration.
  Variables (P : nat) (epsilon : R).

  Lemma hessian_base h p theta h' q H : evaluate_hessian c cfg P epsilon h p theta = (h', Some (q, H)) ->
    exists h1 columns, evaluate c cfg h p theta true = (h1, Some q) /\
      differences (perturbed_gradient c cfg p) epsilon h1 theta (seq 0 P) = (h', Some columns) /\ H = symmetrized columns.
  Proof.
    unfold evaluate_hessian. intro E. destruct (evaluate c cfg h p theta true) as [h1 [q1|]]; [|discriminate].
    destruct (differences _ _ _ _ _) as [h2 [cols|]] eqn:D; [|discriminate]. injection E as <- <- <-. exists h1, cols. auto.
  Qed.

  Lemma hessian_central h p theta h1 q g : epsilon <> 0 -> evaluate c cfg h p theta true = (h1, Some q) ->
    (forall x h, perturbation P epsilon theta x -> exists h' q', evaluate c cfg h p x true = (h', Some q') /\ gradient q' = numbers P (g x)) ->
    exists h2 H, evaluate_hessian c cfg P epsilon h p theta = (h2, Some (q, H)) /\
    forall i j, (i < P)%nat -> (j < P)%nat ->
      H i j = Num ((central (fun x => g x i) theta epsilon j + central (fun x => g x j) theta epsilon i) / 2).
  Proof.
    intros He E G. unfold evaluate_hessian. rewrite E.
    assert (D := differences_values (perturbed_gradient c cfg p) epsilon P g theta (seq 0 P) He).
    specialize (D ltac:(intros j h' t Hj Ht; apply in_seq in Hj;
      destruct (G (moved theta j t) h' ltac:(exists j, t; repeat split; [lia|exact Ht])) as [h2 [q' [E2 G2]]];
      unfold perturbed_gradient; rewrite E2; cbn [snd]; rewrite G2; reflexivity) h1).
    destruct (differences _ _ _ _ _) as [h2 [cols|]]; [|discriminate]. injection D as ->.
    eexists _, _. split; [reflexivity|]. intros i j Hi Hj. apply (symmetrized_values P (fun i j => central (fun x => g x i) theta epsilon j) i j Hi Hj).
  Qed.

  Lemma hessian_raises h p theta x : perturbation P epsilon theta x -> (forall h, snd (evaluate c cfg h p x true) = None) ->
    snd (evaluate_hessian c cfg P epsilon h p theta) = None.
  Proof.
    intros [j [t [Hj [Ht ->]]]] N. unfold evaluate_hessian. destruct (evaluate c cfg h p theta true) as [h1 [q|]]; [|reflexivity].
    assert (D := differences_raise (perturbed_gradient c cfg p) epsilon theta (seq 0 P) j t ltac:(apply in_seq; lia) Ht
      ltac:(intro h2; unfold perturbed_gradient; specialize (N h2); destruct (evaluate _ _ _ _ _ _) as [h3 [q3|]]; [discriminate|reflexivity]) h1).
    destruct (differences _ _ _ _ _) as [h2 [cols|]]; [discriminate|reflexivity].
  Qed.

  (** Exceptions do not change old arrays. *)
  Lemma evaluate_none h p theta cg h' : evaluate c cfg h p theta cg = (h', None) -> exists o, h' = h ++ [o].
  Proof.
    intro E. assert (B := proj1 (evaluate_raise c cfg h p theta cg h' E)). revert E. unfold evaluate. cbv zeta. rewrite B.
    match goal with |- context [match ?l with [] => _ | _ :: _ => _ end] => destruct l end; intro E; [discriminate|].
    injection E as <-. eexists. reflexivity.
  Qed.

  (** If the objective did not fail, it is in a new array. *)
  Lemma evaluate_new h p theta cg h' q : evaluate c cfg h p theta cg = (h', Some q) -> ~ In ObjectiveReversion (errors q) -> (length h <= objective q)%nat.
  Proof.
    intros E N. apply evaluate_cases in E. cbv zeta in E. destruct E as [_ [_ [_ [_ [_ [_ [Er [_ C]]]]]]]].
    set (o := fst (new_objective c theta p (raw_quantities c cfg p theta cg))) in *.
    assert (F : ffin o = true).
    { destruct (ffin o) eqn:F; [reflexivity|]. exfalso. apply N. rewrite Er. unfold new_errors. fold o. rewrite F. cbn [negb].
      rewrite !in_app_iff. do 8 right. left. left. reflexivity. }
    rewrite F in C. cbn [negb] in C. destruct C as [[_ [_ [-> _]]]|[[_ [_ [_ [-> _]]]]|[_ [_ [_ [-> _]]]]]]; lia.
  Qed.

  Lemma hessian_objective h p theta h1 q h2 H : (objective p < length h)%nat -> evaluate c cfg h p theta true = (h1, Some q) ->
    evaluate_hessian c cfg P epsilon h p theta = (h2, Some (q, H)) -> on_error cfg <> Revert \/ ~ In ObjectiveReversion (errors q) ->
    cell h2 (objective q) = cell h1 (objective q).
  Proof.
    intros L E EH C. apply hessian_base in EH. destruct EH as [h1' [cols [E' [D _]]]]. rewrite E in E'. injection E' as <-.
    destruct (evaluate_heap c cfg h p theta true h1 q L E) as [L1 [L2 _]].
    set (I := fun h' : heap => (length h1 <= length h')%nat /\ cell h' (objective q) = cell h1 (objective q)).
    assert (K : I h2).
    { change h2 with (fst (h2, Some cols)). rewrite <- D. apply differences_heap; [|split; [lia|reflexivity]].
      intros h3 x [I1 I2]. unfold perturbed_gradient. destruct (evaluate c cfg h3 p x true) as [h4 [q4|]] eqn:E4; cbn [fst].
      - destruct (evaluate_heap c cfg h3 p x true h4 q4 ltac:(lia) E4) as [K1 [_ [K3 [K4 _]]]]. split; [lia|]. rewrite <- I2.
        destruct C as [C|C].
        + apply K4; [left; exact C|lia].
        + assert (O := evaluate_new h p theta true h1 q E C). apply K3; lia.
      - destruct (evaluate_none _ _ _ _ _ E4) as [o ->]. split; [rewrite app_length; lia|]. rewrite cell_app by lia. exact I2. }
    exact (proj2 K).
  Qed.

  (* ---------- Jacobians ---------- *)

  Lemma nth_firstn_lt (l : list flt) n i d : (i < n)%nat -> nth i (firstn n l) d = nth i l d.
  Proof. revert n i. induction l as [|x l IH]; intros [|n] [|i] Hi; cbn; try lia; auto. apply IH. lia. Qed.
  Lemma nth_skipn_add (l : list flt) n i d : nth i (skipn n l) d = nth (n + i) l d.
  Proof. revert n. induction l as [|x l IH]; intros [|n]; cbn; auto; [destruct i; reflexivity]. Qed.

  Lemma element_map (f : list flt -> list flt) cols i j : (j < length cols)%nat -> element (map f cols) i j = nth i (f (nth j cols [])) NaN.
  Proof. intro Hj. unfold element. rewrite (nth_indep _ [] (f [])) by (rewrite map_length; exact Hj). rewrite map_nth. reflexivity. Qed.

  Variables iv_delta iv_costs : parameters -> list flt -> list flt.
  Lemma jacobians_central N MM h p theta (d m k : parameters -> nat -> R) : epsilon <> 0 ->
    (forall x h, perturbation P epsilon theta x -> exists h' q, evaluate c cfg h p x false = (h', Some q) /\
       iv_delta x (delta q) = numbers N (d x) /\ (micro_moments c = true -> micro q = numbers MM (m x)) /\
       (supply c = true -> iv_costs x (tilde_costs q) = numbers N (k x))) ->
    exists h' JX JM JO, finite_jacobians c cfg P epsilon iv_delta iv_costs N MM h p theta = (h', Some (JX, JM, JO)) /\
    forall j, (j < P)%nat ->
      (forall i, (i < N)%nat -> element JX i j = Num (central (fun x => d x i) theta epsilon j)) /\
      (micro_moments c = true -> forall i, (i < MM)%nat -> element JM i j = Num (central (fun x => m x i) theta epsilon j)) /\
      (supply c = true -> forall i, (i < N)%nat -> element JO i j = Num (central (fun x => k x i) theta epsilon j)).
  Proof.
    intros He G. unfold finite_jacobians.
    set (M' := if micro_moments c then MM else 0%nat). set (N' := if supply c then N else 0%nat).
    set (s := fun x i => if Nat.ltb i N then d x i else if Nat.ltb (i - N) M' then m x (i - N)%nat else k x (i - N - M')%nat).
    assert (D := differences_values (perturbed_stack c cfg iv_delta iv_costs p) epsilon (N + (M' + N')) s theta (seq 0 P) He).
    assert (F : forall j h t, In j (seq 0 P) -> t = epsilon / 2 \/ t = - (epsilon / 2) ->
      snd (perturbed_stack c cfg iv_delta iv_costs p h (moved theta j t)) = Some (numbers (N + (M' + N')) (s (moved theta j t)))).
    { intros j h' t Hj Ht. apply in_seq in Hj.
      destruct (G (moved theta j t) h' ltac:(exists j, t; repeat split; [lia|exact Ht])) as [h2 [q [E [G1 [G2 G3]]]]].
      unfold perturbed_stack. rewrite E. cbn [snd]. f_equal. rewrite G1.
      assert (M1 : (if micro_moments c then micro q else []) = numbers M' (m (moved theta j t))).
      { unfold M'. destruct (micro_moments c); [apply G2; reflexivity|reflexivity]. }
      assert (N1 : (if supply c then iv_costs (moved theta j t) (tilde_costs q) else []) = numbers N' (k (moved theta j t))).
      { unfold N'. destruct (supply c); [apply G3; reflexivity|reflexivity]. }
      rewrite M1, N1, !numbers_app. reflexivity. }
    specialize (D F h). destruct (differences _ _ _ _ _) as [h' [cols|]]; [|discriminate]. injection D as ->.
    eexists _, _, _, _. split; [reflexivity|]. intros j Hj.
    assert (Lc : (j < length (map (fun j => numbers (N + (M' + N')) (fun i => central (fun x => s x i) theta epsilon j)) (seq 0 P)))%nat)
      by (rewrite map_length, seq_length; exact Hj).
    split; [|split].
    - intros i Hi. rewrite element_map, nth_columns by assumption. unfold demand_rows. rewrite nth_firstn_lt, nth_numbers by lia. f_equal.
      unfold central, s. destruct (Nat.ltb_spec i N); [reflexivity|lia].
    - intros B i Hi. assert (EM : M' = MM) by (unfold M'; rewrite B; reflexivity). rewrite element_map, nth_columns by assumption.
      unfold micro_rows. rewrite nth_firstn_lt, nth_skipn_add, nth_numbers by lia. f_equal. unfold central, s.
      destruct (Nat.ltb_spec (N + i) N); [lia|]. replace (N + i - N)%nat with i by lia. destruct (Nat.ltb_spec i M'); [reflexivity|lia].
    - intros B i Hi. assert (EN : N' = N) by (unfold N'; rewrite B; reflexivity). rewrite element_map, nth_columns by assumption.
      unfold supply_rows. rewrite numbers_length, nth_skipn_add, nth_numbers by lia. f_equal. unfold central, s.
      set (r := (N + (M' + N') - N + i)%nat). destruct (Nat.ltb_spec r N); [lia|]. destruct (Nat.ltb_spec (r - N) M'); [lia|].
      replace (r - N - M')%nat with i by lia. reflexivity.
  Qed.
End Evaluate.

(* ---------- A problem with one parameter ---------- *)

(** The objective is half of the square of the parameter; mean utilities cannot be computed where [b] is false; the
    objective cannot be computed where [o] is false. *)
Definition wcomputation (b o : parameters -> bool) : computation parameters := {|
  supply := false; micro_moments := false; random_coefficients := true;
  logit_delta := fun _ => [Num 0];
  fixed_point := fun theta _ => ([if b theta then Num 0 else NaN], []);
  micro_values := fun _ _ => ([], []);
  xi_by_theta := fun _ _ => ([Num 0], []);
  micro_by_theta := fun _ _ => ([], []);
  costs := fun _ _ => ([], []);
  omega_by_theta := fun _ _ _ => ([], []);
  gmm_objective := fun theta _ _ _ => (if o theta then Num (theta 0%nat * theta 0%nat / 2) else NaN, []);
  gmm_gradient := fun theta _ _ _ _ _ _ => [Num (theta 0%nat)] |}.
Definition wprogress : progress := {| objective := 0; gradient := [Num 0]; next_delta := [Num 0]; delta := [Num 0]; tilde_costs := []; micro := [];
  xi_jacobian := [Num 0]; omega_jacobian := []; micro_jacobian := []; errors := [] |}.
Definition wconfiguration (b : error_behavior) : configuration := {| on_error := b; punishment := Num 2; starting := Last |}.

Lemma wgood b o cfg h theta : b theta = true -> o theta = true -> exists q,
  evaluate (wcomputation b o) (wconfiguration cfg) h wprogress theta true = (h ++ [Num (theta 0%nat * theta 0%nat / 2)], Some q) /\
  errors q = [] /\ gradient q = [Num (theta 0%nat)] /\ objective q = length h.
Proof.
  intros B O. unfold evaluate, raw_quantities, market_by_market. cbn. rewrite B, O. cbn.
  eexists. split; [reflexivity|]. repeat split.
Qed.
Lemma wpunished b o h theta : b theta = false -> exists h' q,
  evaluate (wcomputation b o) (wconfiguration Punish) h wprogress theta true = (h', Some q) /\ gradient q = [Num 0].
Proof.
  intros B. unfold evaluate, raw_quantities, market_by_market. cbn. rewrite B. cbn.
  eexists _, _. split; [reflexivity|]. reflexivity.
Qed.
Lemma wreverted b o h theta : b theta = true -> o theta = false -> exists q,
  evaluate (wcomputation b o) (wconfiguration Revert) h wprogress theta true = (set_cell (h ++ [NaN]) 0 (fmul (cell (h ++ [NaN]) 0) (Num 2)), Some q) /\
  gradient q = [Num (theta 0%nat)] /\ objective q = 0%nat.
Proof.
  intros B O. unfold evaluate, raw_quantities, market_by_market. cbn. rewrite B, O. cbn.
  eexists. split; [reflexivity|]. repeat split.
Qed.
