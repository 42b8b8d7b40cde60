(** Proofs about objective evaluations. *)
From Coq Require Import Reals Lra Lia List Bool Arith.
From Verif Require Import Base FltModel ProgressModel ProgressSpec DemandDeriv.
Import ListNotations.

Lemma ffin_iff x : ffin x = true <-> finite x.
Proof. unfold finite. destruct x; cbn; split; intro H; try discriminate; eauto; destruct H; discriminate. Qed.
Lemma ffin_not x : ffin x = false <-> ~ finite x.
Proof. rewrite <- ffin_iff. destruct (ffin x); split; intro; congruence. Qed.
Lemma any_bad_false l : any_bad l = false <-> all_finite l.
Proof.
  unfold any_bad, all_finite. split.
  - intros H x Hx. apply ffin_iff. destruct (ffin x) eqn:E; [reflexivity|]. exfalso.
    assert (T : existsb (fun x => negb (ffin x)) l = true) by (apply existsb_exists; exists x; rewrite E; auto). congruence.
  - intro H. destruct (existsb _ l) eqn:E; [|reflexivity]. apply existsb_exists in E. destruct E as [x [Hx N]].
    apply H in Hx. apply ffin_iff in Hx. rewrite Hx in N. discriminate.
Qed.

Lemma replace_length last raw : length last = length raw -> length (replace_bad last raw) = length raw.
Proof. revert raw. induction last as [|l last IH]; intros [|x raw] H; try discriminate; [reflexivity|]. cbn. rewrite IH by (cbn in H; lia). reflexivity. Qed.
Lemma replace_nth last raw n : length last = length raw -> n < length raw ->
  nth n (replace_bad last raw) NaN = if ffin (nth n raw NaN) then nth n raw NaN else nth n last NaN.
Proof.
  revert raw n. induction last as [|l last IH]; intros [|x raw] n H Hn; try discriminate; cbn in Hn; [lia|].
  destruct n; [reflexivity|]. cbn [replace_bad nth]. apply IH; [cbn in H|]; lia.
Qed.
Lemma replace_reverted last raw : length last = length raw -> reverted last raw (replace_bad last raw).
Proof.
  intro H. split; [apply replace_length, H|]. intros n Hn. rewrite (replace_nth last raw n H Hn).
  split; intro F; [apply ffin_iff in F|apply ffin_not in F]; rewrite F; reflexivity.
Qed.
Lemma replace_finite last raw : length last = length raw -> all_finite raw -> replace_bad last raw = raw.
Proof.
  revert raw. induction last as [|l last IH]; intros [|x raw] H F; try discriminate; [reflexivity|]. cbn [replace_bad].
  assert (E : ffin x = true) by (apply ffin_iff, F; left; reflexivity). rewrite E. f_equal. apply IH; [cbn in H; lia|].
  intros y Hy. apply F. right. exact Hy.
Qed.
Lemma replace_all_finite last raw : all_finite last -> all_finite (replace_bad last raw).
Proof.
  revert raw. induction last as [|l last IH]; intros [|x raw] H y Hy; cbn in Hy; try destruct Hy as [<-|Hy]; try contradiction.
  - destruct (ffin x) eqn:E; [apply ffin_iff, E|apply H; left; reflexivity].
  - apply (IH raw); [|exact Hy]. intros z Hz. apply H. right. exact Hz.
Qed.
Lemma revert_reverted e last raw : length last = length raw -> reverted last raw (fst (revert e last raw)).
Proof.
  intro H. unfold revert. cbn [fst]. destruct (any_bad raw) eqn:B; [apply replace_reverted, H|].
  apply any_bad_false in B. rewrite <- (replace_finite last raw H B) at 2. apply replace_reverted, H.
Qed.
Lemma revert_finite e last raw : all_finite last -> all_finite (fst (revert e last raw)).
Proof.
  intro H. unfold revert. cbn [fst]. destruct (any_bad raw) eqn:B; [apply replace_all_finite, H|apply any_bad_false, B].
Qed.
Lemma revert_length e last raw : length last = length raw -> length (fst (revert e last raw)) = length raw.
Proof. intro H. apply (revert_reverted e last raw H). Qed.

Lemma set_cell_length h n x : length (set_cell h n x) = length h.
Proof. revert n. induction h as [|y h IH]; intros [|n]; cbn; auto. Qed.
Lemma set_cell_same h n x : n < length h -> cell (set_cell h n x) n = x.
Proof. unfold cell. revert n. induction h as [|y h IH]; intros [|n] H; cbn in *; try lia; auto. apply IH. lia. Qed.
Lemma set_cell_other h n m x : m <> n -> cell (set_cell h n x) m = cell h m.
Proof.
  unfold cell. revert n m. induction h as [|y h IH]; intros [|n] [|m] H; cbn; try reflexivity; try congruence.
  apply IH. congruence.
Qed.
Lemma cell_app h l n : n < length h -> cell (h ++ l) n = cell h n.
Proof. intro H. unfold cell. apply app_nth1. exact H. Qed.
Lemma cell_new h x : cell (h ++ [x]) (length h) = x.
Proof. unfold cell. rewrite app_nth2 by lia. rewrite Nat.sub_diag. reflexivity. Qed.

Section Evaluate.
  Context {Theta : Type}.
  Variable c : computation Theta.
  Variable cfg : configuration.

  (** Shapes of arrays do not change: those of a progress are those of what is computed. *)
  Definition same_shapes (p : progress) (r : raw) : Prop :=
    length (delta p) = length (raw_delta r) /\
    (micro_moments c = true -> length (micro p) = length (raw_micro r)) /\
    (supply c = true -> length (tilde_costs p) = length (raw_costs r)) /\
    length (xi_jacobian p) = length (raw_xi_jacobian r) /\
    length (micro_jacobian p) = length (raw_micro_jacobian r) /\
    length (omega_jacobian p) = length (raw_omega_jacobian r).

  Definition reverted_micro (p : progress) (r : raw) :=
    if micro_moments c then revert MicroReversion (micro p) (raw_micro r) else (raw_micro r, []).
  Definition reverted_costs (p : progress) (r : raw) :=
    if supply c then revert CostsReversion (tilde_costs p) (raw_costs r) else (raw_costs r, []).
  Definition reverted_xi (cg : bool) (p : progress) (r : raw) :=
    if cg then revert XiJacobianReversion (xi_jacobian p) (raw_xi_jacobian r) else (raw_xi_jacobian r, []).
  Definition reverted_micro_jacobian (cg : bool) (p : progress) (r : raw) :=
    if (cg && micro_moments c)%bool then revert MicroJacobianReversion (micro_jacobian p) (raw_micro_jacobian r)
    else (raw_micro_jacobian r, []).
  Definition reverted_omega (cg : bool) (p : progress) (r : raw) :=
    if (cg && supply c)%bool then revert OmegaJacobianReversion (omega_jacobian p) (raw_omega_jacobian r)
    else (raw_omega_jacobian r, []).
  Definition new_delta (p : progress) (r : raw) := revert DeltaReversion (delta p) (raw_delta r).
  Definition new_objective theta (p : progress) (r : raw) :=
    gmm_objective c theta (fst (new_delta p r)) (fst (reverted_costs p r)) (fst (reverted_micro p r)).
  Definition raw_gradient theta cg (p : progress) (r : raw) :=
    gmm_gradient c theta (fst (new_delta p r)) (fst (reverted_costs p r)) (fst (reverted_micro p r))
      (fst (reverted_xi cg p r)) (fst (reverted_omega cg p r)) (fst (reverted_micro_jacobian cg p r)).
  Definition new_gradient theta (cg : bool) (p : progress) (r : raw) :=
    if cg then revert GradientReversion (gradient p) (raw_gradient theta cg p r) else (nans (gradient p), []).
  Definition new_errors theta (cg : bool) (p : progress) (r : raw) :=
    raw_errors r ++ snd (new_delta p r) ++ snd (reverted_micro p r) ++ snd (reverted_costs p r) ++ snd (reverted_xi cg p r)
    ++ snd (reverted_micro_jacobian cg p r) ++ snd (reverted_omega cg p r) ++ snd (new_objective theta p r)
    ++ (if negb (ffin (fst (new_objective theta p r))) then [ObjectiveReversion] else []) ++ snd (new_gradient theta cg p r).

  Lemma evaluate_cases h p theta cg h' p' : evaluate c cfg h p theta cg = (h', Some p') ->
    let r := raw_quantities c cfg p theta cg in
    let o := fst (new_objective theta p r) in
    let where1 := if negb (ffin o) then objective p else length h in
    delta p' = fst (new_delta p r) /\ micro p' = fst (reverted_micro p r) /\ tilde_costs p' = fst (reverted_costs p r) /\
    xi_jacobian p' = fst (reverted_xi cg p r) /\ micro_jacobian p' = fst (reverted_micro_jacobian cg p r) /\
    omega_jacobian p' = fst (reverted_omega cg p r) /\ errors p' = new_errors theta cg p r /\
    next_delta p' = match starting cfg with First => next_delta p | _ => fst (new_delta p r) end /\
    ((errors p' = [] /\ h' = h ++ [o] /\ objective p' = where1 /\ gradient p' = fst (new_gradient theta cg p r)) \/
     (errors p' <> [] /\ on_error cfg = Revert /\
      h' = set_cell (h ++ [o]) where1 (fmul (cell (h ++ [o]) where1) (punishment cfg)) /\ objective p' = where1 /\
      gradient p' = fst (new_gradient theta cg p r)) \/
     (errors p' <> [] /\ on_error cfg = Punish /\ h' = (h ++ [o]) ++ [punishment cfg] /\ objective p' = S (length h) /\
      gradient p' = (if cg then zeros (gradient p) else fst (new_gradient theta cg p r)))).
  Proof.
    unfold evaluate. cbv zeta. set (r := raw_quantities c cfg p theta cg).
    fold (new_delta p r). fold (reverted_micro p r). fold (reverted_costs p r). fold (reverted_xi cg p r).
    fold (reverted_micro_jacobian cg p r). fold (reverted_omega cg p r). fold (new_objective theta p r).
    fold (raw_gradient theta cg p r). fold (new_gradient theta cg p r). fold (new_errors theta cg p r).
    intro H. destruct (new_errors theta cg p r) as [|e es] eqn:E.
    - injection H as <- <-. cbn. repeat split; auto.
    - destruct (on_error cfg) eqn:B; [discriminate H| |]; injection H as <- <-; cbn; repeat split; auto; right; [left|right];
        repeat split; auto; discriminate.
  Qed.

  Lemma evaluate_raise h p theta cg h' : evaluate c cfg h p theta cg = (h', None) ->
    on_error cfg = Raise /\ new_errors theta cg p (raw_quantities c cfg p theta cg) <> [].
  Proof.
    unfold evaluate. cbv zeta. set (r := raw_quantities c cfg p theta cg).
    fold (new_delta p r). fold (reverted_micro p r). fold (reverted_costs p r). fold (reverted_xi cg p r).
    fold (reverted_micro_jacobian cg p r). fold (reverted_omega cg p r). fold (new_objective theta p r).
    fold (raw_gradient theta cg p r). fold (new_gradient theta cg p r). fold (new_errors theta cg p r).
    destruct (new_errors theta cg p r) as [|e es] eqn:E; intro H; [discriminate H|].
    destruct (on_error cfg) eqn:B; try discriminate H. split; [reflexivity|discriminate].
  Qed.
  Lemma evaluate_raises h p theta cg : on_error cfg = Raise ->
    new_errors theta cg p (raw_quantities c cfg p theta cg) <> [] -> snd (evaluate c cfg h p theta cg) = None.
  Proof.
    intros B N. destruct (evaluate c cfg h p theta cg) as [h' [p'|]] eqn:E; [|reflexivity].
    apply evaluate_cases in E. cbv zeta in E. destruct E as [_ [_ [_ [_ [_ [_ [Er [_ C]]]]]]]].
    destruct C as [[X _]|[[_ [X _]]|[_ [X _]]]]; congruence.
  Qed.

  (* ---------- Reversion ---------- *)

  Lemma evaluate_reverts h p theta cg h' p' : evaluate c cfg h p theta cg = (h', Some p') ->
    let r := raw_quantities c cfg p theta cg in same_shapes p r ->
    reverted (delta p) (raw_delta r) (delta p') /\
    (micro_moments c = true -> reverted (micro p) (raw_micro r) (micro p')) /\
    (supply c = true -> reverted (tilde_costs p) (raw_costs r) (tilde_costs p')) /\
    (cg = true -> reverted (xi_jacobian p) (raw_xi_jacobian r) (xi_jacobian p')) /\
    (cg = true -> micro_moments c = true -> reverted (micro_jacobian p) (raw_micro_jacobian r) (micro_jacobian p')) /\
    (cg = true -> supply c = true -> reverted (omega_jacobian p) (raw_omega_jacobian r) (omega_jacobian p')).
  Proof.
    intros E r [S1 [S2 [S3 [S4 [S5 S6]]]]]. apply evaluate_cases in E. cbv zeta in E. fold r in E.
    destruct E as [-> [-> [-> [-> [-> [-> _]]]]]].
    unfold new_delta, reverted_micro, reverted_costs, reverted_xi, reverted_micro_jacobian, reverted_omega.
    split; [apply revert_reverted, S1|].
    repeat split; intros; repeat match goal with H : ?b = true |- _ => rewrite H in * end; cbn [andb];
      apply revert_reverted; auto.
  Qed.

  (** The number of reversion errors of each kind. *)
  Definition is_reversion (e : error) : Prop := forall n, e <> OtherError n.
  Definition own_errors (p : progress) (theta : Theta) (cg : bool) : Prop :=
    let r := raw_quantities c cfg p theta cg in
    forall e, is_reversion e -> ~ In e (raw_errors r) /\ ~ In e (snd (new_objective theta p r)).

  Lemma count_singleton e e' (b : bool) : count_occ error_eq_dec (if b then [e'] else []) e =
    if b then (if error_eq_dec e' e then 1 else 0) else 0.
  Proof. destruct b; reflexivity. Qed.
  Lemma revert_count e e' last raw : count_occ error_eq_dec (snd (revert e' last raw)) e =
    if any_bad raw then (if error_eq_dec e' e then 1 else 0) else 0.
  Proof. unfold revert. cbn [snd]. apply count_singleton. Qed.

  Lemma evaluate_counts h p theta cg h' p' : evaluate c cfg h p theta cg = (h', Some p') -> own_errors p theta cg ->
    let r := raw_quantities c cfg p theta cg in
    let count e := count_occ error_eq_dec (errors p') e in
    count DeltaReversion = (if any_bad (raw_delta r) then 1 else 0) /\
    (micro_moments c = true -> count MicroReversion = (if any_bad (raw_micro r) then 1 else 0)) /\
    (supply c = true -> count CostsReversion = (if any_bad (raw_costs r) then 1 else 0)) /\
    (cg = true -> count XiJacobianReversion = (if any_bad (raw_xi_jacobian r) then 1 else 0)) /\
    (cg = true -> micro_moments c = true -> count MicroJacobianReversion = (if any_bad (raw_micro_jacobian r) then 1 else 0)) /\
    (cg = true -> supply c = true -> count OmegaJacobianReversion = (if any_bad (raw_omega_jacobian r) then 1 else 0)) /\
    count ObjectiveReversion = (if ffin (fst (new_objective theta p r)) then 0 else 1) /\
    (cg = true -> count GradientReversion = (if any_bad (raw_gradient theta cg p r) then 1 else 0)).
  Proof.
    intros E Own r count. apply evaluate_cases in E. cbv zeta in E. fold r in E. destruct E as [_ [_ [_ [_ [_ [_ [Er _]]]]]]].
    assert (Z : forall e, is_reversion e -> count_occ error_eq_dec (raw_errors r) e = 0 /\ count_occ error_eq_dec (snd (new_objective theta p r)) e = 0).
    { intros e He. destruct (Own e He) as [A B]. split; apply count_occ_not_In; assumption. }
    assert (C : forall e, is_reversion e -> count e =
      count_occ error_eq_dec (snd (new_delta p r)) e + (count_occ error_eq_dec (snd (reverted_micro p r)) e +
      (count_occ error_eq_dec (snd (reverted_costs p r)) e + (count_occ error_eq_dec (snd (reverted_xi cg p r)) e +
      (count_occ error_eq_dec (snd (reverted_micro_jacobian cg p r)) e + (count_occ error_eq_dec (snd (reverted_omega cg p r)) e +
      (count_occ error_eq_dec (if negb (ffin (fst (new_objective theta p r))) then [ObjectiveReversion] else []) e +
       count_occ error_eq_dec (snd (new_gradient theta cg p r)) e))))))).
    { intros e He. unfold count. rewrite Er. unfold new_errors. rewrite !count_occ_app. destruct (Z e He) as [-> ->]. lia. }
    assert (Re : is_reversion DeltaReversion /\ is_reversion MicroReversion /\ is_reversion CostsReversion /\ is_reversion XiJacobianReversion
      /\ is_reversion MicroJacobianReversion /\ is_reversion OmegaJacobianReversion /\ is_reversion ObjectiveReversion /\ is_reversion GradientReversion).
    { unfold is_reversion. repeat split; intros; discriminate. }
    destruct Re as [R1 [R2 [R3 [R4 [R5 [R6 [R7 R8]]]]]]].
    rewrite (C _ R1), (C _ R2), (C _ R3), (C _ R4), (C _ R5), (C _ R6), (C _ R7), (C _ R8). clear C.
    unfold new_delta, reverted_micro, reverted_costs, reverted_xi, reverted_micro_jacobian, reverted_omega, new_gradient.
    rewrite !revert_count, !count_singleton.
    destruct (micro_moments c), (supply c), cg; cbn [andb snd]; rewrite ?revert_count;
      destruct (any_bad (raw_delta r)), (ffin (fst (new_objective theta p r))); cbn [negb];
      repeat match goal with |- context [error_eq_dec ?a ?b] =>
        destruct (error_eq_dec a b) as [X|X]; [try discriminate X|try congruence]; clear X end; cbn [count_occ];
      repeat split; intros; try discriminate;
      repeat match goal with |- context [if any_bad ?l then _ else _] => destruct (any_bad l) end; reflexivity.
  Qed.

  Lemma nans_length l : length (nans l) = length l. Proof. apply map_length. Qed.
  Lemma zeros_length l : length (zeros l) = length l. Proof. apply map_length. Qed.
  Lemma zeros_finite l : all_finite (zeros l).
  Proof. intros x Hx. apply in_map_iff in Hx. destruct Hx as [y [<- _]]. exists 0%R. reflexivity. Qed.
  Lemma nil_finite : all_finite []. Proof. intros x []. Qed.

  Lemma raw_shapes s p theta cg : has_shapes p s -> computes_shapes c s ->
    let r := raw_quantities c cfg p theta cg in
    same_shapes p r /\ length (raw_micro r) = n_micro s /\ length (raw_costs r) = n_costs s.
  Proof.
    intros [P1 [P2 [P3 [P4 [P5 [P6 P7]]]]]] [C1 [C2 [C3 [C4 [C5 [C6 [C7 C8]]]]]]]. cbv zeta.
    assert (Q2 : (micro_moments c = true -> length (micro p) = n_micro s)) by auto.
    unfold raw_quantities, market_by_market, same_shapes.
    destruct (random_coefficients c || supply c || micro_moments c || cg)%bool eqn:B; cbn -[Nat.add];
      destruct (micro_moments c), (supply c), cg; cbn [fst snd andb length] in *; rewrite ?nans_length, ?zeros_length;
      try (rewrite ?orb_true_r in B; discriminate B);
      repeat split; intros; try discriminate; rewrite ?C1, ?C2, ?C3, ?C4, ?C5, ?C6, ?C7 by reflexivity; congruence.
  Qed.

  Lemma evaluate_shapes s h p theta cg h' p' : has_shapes p s -> computes_shapes c s ->
    evaluate c cfg h p theta cg = (h', Some p') -> has_shapes p' s.
  Proof.
    intros P C E. destruct (raw_shapes s p theta cg P C) as [[S1 [S2 [S3 [S4 [S5 S6]]]]] [S7 S8]].
    apply evaluate_cases in E. cbv zeta in E. set (r := raw_quantities c cfg p theta cg) in *.
    destruct P as [P1 [P2 [P3 [P4 [P5 [P6 P7]]]]]]. destruct C as [C1 [C2 [C3 [C4 [C5 [C6 [C7 C8]]]]]]].
    destruct E as [E1 [E2 [E3 [E4 [E5 [E6 [_ [_ E7]]]]]]]]. unfold has_shapes. rewrite E1, E2, E3, E4, E5, E6.
    unfold new_delta, reverted_micro, reverted_costs, reverted_xi, reverted_micro_jacobian, reverted_omega.
    assert (G : length (fst (new_gradient theta cg p r)) = n_theta s).
    { unfold new_gradient. destruct cg; [|cbn; rewrite nans_length; exact P7].
      unfold raw_gradient. rewrite revert_length; rewrite C8; congruence. }
    repeat split.
    - rewrite revert_length; congruence.
    - destruct (micro_moments c); [|exact S7]. rewrite revert_length; [exact S7|auto].
    - destruct (supply c); [|exact S8]. rewrite revert_length; [exact S8|auto].
    - destruct cg; [rewrite revert_length by exact S4|]; cbn [fst]; congruence.
    - destruct (cg && micro_moments c)%bool; [rewrite revert_length by exact S5|]; cbn [fst]; congruence.
    - destruct (cg && supply c)%bool; [rewrite revert_length by exact S6|]; cbn [fst]; congruence.
    - destruct E7 as [[_ [_ [_ ->]]]|[[_ [_ [_ [_ ->]]]]|[_ [_ [_ [_ ->]]]]]]; try exact G.
      destruct cg; [rewrite zeros_length; exact P7|exact G].
  Qed.

  (* ---------- Histories ---------- *)

  Lemma evaluate_heap h p theta cg h' p' : objective p < length h -> evaluate c cfg h p theta cg = (h', Some p') ->
    length h < length h' /\ objective p' < length h' /\
    (forall n, n < length h -> n <> objective p -> cell h' n = cell h n) /\
    (on_error cfg <> Revert \/ ~ In ObjectiveReversion (errors p') -> forall n, n < length h -> cell h' n = cell h n) /\
    (objective p' = objective p \/ length h <= objective p').
  Proof.
    intros L E. apply evaluate_cases in E. cbv zeta in E. set (r := raw_quantities c cfg p theta cg) in *.
    destruct E as [_ [_ [_ [_ [_ [_ [Er [_ C]]]]]]]].
    set (o := fst (new_objective theta p r)) in *.
    destruct C as [[N [-> [-> _]]]|[[N [B [-> [-> _]]]]|[N [B [-> [-> _]]]]]].
    - rewrite !app_length. cbn [length]. split; [lia|]. split; [destruct (ffin o); cbn; lia|].
      split; [intros; apply cell_app; assumption|]. split; [intros; apply cell_app; assumption|].
      destruct (ffin o); cbn; lia.
    - rewrite set_cell_length, !app_length. cbn [length]. split; [lia|]. split; [destruct (ffin o); cbn; lia|].
      split; [|split].
      + intros n Hn Hp. rewrite set_cell_other; [apply cell_app, Hn|]. destruct (ffin o); cbn; [lia|exact Hp].
      + intros H n Hn. destruct H as [H|H]; [contradiction|]. rewrite set_cell_other; [apply cell_app, Hn|].
        destruct (ffin o) eqn:F; cbn [negb]; [lia|]. exfalso. apply H. rewrite Er. unfold new_errors. fold o. rewrite F. cbn [negb].
        rewrite !in_app_iff. do 8 right. left. left. reflexivity.
      + destruct (ffin o); cbn; lia.
    - rewrite !app_length. cbn [length]. split; [lia|]. split; [lia|].
      split; [intros; rewrite cell_app by (rewrite app_length; cbn; lia); apply cell_app; assumption|].
      split; [intros; rewrite cell_app by (rewrite app_length; cbn; lia); apply cell_app; assumption|]. lia.
  Qed.

  (** Values of the objective. *)
  Lemma evaluate_objective h p theta cg h' p' : objective p < length h -> evaluate c cfg h p theta cg = (h', Some p') ->
    let o := fst (new_objective theta p (raw_quantities c cfg p theta cg)) in
    let o' := if ffin o then o else cell h (objective p) in
    (errors p' = [] -> cell h' (objective p') = o /\ finite o) /\
    (errors p' <> [] -> on_error cfg <> Raise) /\
    (errors p' <> [] -> on_error cfg = Revert -> cell h' (objective p') = fmul o' (punishment cfg)) /\
    (errors p' <> [] -> on_error cfg = Punish -> cell h' (objective p') = punishment cfg /\
       (cg = true -> gradient p' = zeros (gradient p))).
  Proof.
    intros L E. apply evaluate_cases in E. cbv zeta in E. set (r := raw_quantities c cfg p theta cg) in *.
    destruct E as [_ [_ [_ [_ [_ [_ [Er [_ C]]]]]]]]. cbv zeta.
    set (o := fst (new_objective theta p r)) in *.
    destruct C as [[N [-> [-> _]]]|[[N [B [-> [-> _]]]]|[N [B [-> [-> G]]]]]].
    - assert (F : ffin o = true).
      { destruct (ffin o) eqn:F; [reflexivity|]. exfalso. rewrite N in Er. symmetry in Er. unfold new_errors in Er. fold o in Er. rewrite F in Er.
        cbn [negb] in Er. repeat (apply app_eq_nil in Er; destruct Er as [? Er]). discriminate. }
      rewrite F. cbn [negb]. split; [|split; [|split]]; try (intro; contradiction).
      intros _. split; [apply cell_new|apply ffin_iff, F].
    - split; [intro; contradiction|]. split; [intros; congruence|]. split; [|intros _ X; congruence]. intros _ _.
      rewrite set_cell_same; [|rewrite app_length; cbn; destruct (ffin o); cbn; lia].
      destruct (ffin o); cbn [negb]; [rewrite cell_new|rewrite cell_app by exact L]; reflexivity.
    - split; [intro; contradiction|]. split; [intros; congruence|]. split; [intros _ X; congruence|]. intros _ _. split.
      + replace (S (length h)) with (length (h ++ [o])) by (rewrite app_length; cbn; lia). apply cell_new.
      + intro X. rewrite G, X. reflexivity.
  Qed.

  Lemma evaluate_finite h p theta cg h' p' : evaluate c cfg h p theta cg = (h', Some p') ->
    finite_quantities p -> (micro_moments c = false -> raw_micro (raw_quantities c cfg p theta cg) = []) ->
    (supply c = false -> raw_costs (raw_quantities c cfg p theta cg) = []) -> finite_quantities p'.
  Proof.
    intros E [F1 [F2 F3]] M S. apply evaluate_cases in E. cbv zeta in E. set (r := raw_quantities c cfg p theta cg) in *.
    destruct E as [E1 [E2 [E3 _]]]. unfold finite_quantities. rewrite E1, E2, E3.
    unfold new_delta, reverted_micro, reverted_costs. split; [apply revert_finite, F1|]. split.
    - destruct (micro_moments c); [apply revert_finite, F2|]. cbn [fst]. rewrite M by reflexivity. apply nil_finite.
    - destruct (supply c); [apply revert_finite, F3|]. cbn [fst]. rewrite S by reflexivity. apply nil_finite.
  Qed.
  Lemma raw_absent p theta cg : let r := raw_quantities c cfg p theta cg in
    (micro_moments c = false -> raw_micro r = []) /\ (supply c = false -> raw_costs r = []).
  Proof.
    unfold raw_quantities, market_by_market. cbv zeta.
    destruct (random_coefficients c || supply c || micro_moments c || cg)%bool; cbn; split; auto; intros ->; reflexivity.
  Qed.

  Lemma evaluate_finite_derivatives h p theta h' p' : evaluate c cfg h p theta true = (h', Some p') ->
    finite_derivatives c p -> finite_derivatives c p'.
  Proof.
    intros E [F1 [F2 [F3 F4]]]. apply evaluate_cases in E. cbv zeta in E. set (r := raw_quantities c cfg p theta true) in *.
    destruct E as [_ [_ [_ [E4 [E5 [E6 [_ [_ E7]]]]]]]]. unfold finite_derivatives. rewrite E4, E5, E6.
    unfold reverted_xi, reverted_micro_jacobian, reverted_omega.
    assert (G : all_finite (fst (new_gradient theta true p r))) by (apply revert_finite, F4).
    split; [apply revert_finite, F1|]. split; [|split].
    - cbn [andb]. destruct (micro_moments c) eqn:M; [apply revert_finite, F2|]. cbn [fst]. unfold r, raw_quantities.
      rewrite !orb_true_r. unfold market_by_market. cbv zeta. cbn [raw_micro_jacobian]. rewrite M. cbn. apply zeros_finite.
    - intro S. rewrite S. cbn [andb]. apply revert_finite, F3, S.
    - destruct E7 as [[_ [_ [_ ->]]]|[[_ [_ [_ [_ ->]]]]|[_ [_ [_ [_ ->]]]]]]; try exact G. apply zeros_finite.
  Qed.

  Lemma after_finite l : forall h p h' p', after c cfg h p l = Some (h', p') -> finite_quantities p -> finite_quantities p'.
  Proof.
    induction l as [|[theta cg] l IH]; intros h p h' p' A F; cbn [after] in A; [injection A as <- <-; exact F|].
    destruct (evaluate c cfg h p theta cg) as [h1 [p1|]] eqn:E; [|discriminate A].
    refine (IH _ _ _ _ A _). destruct (raw_absent p theta cg) as [M S]. exact (evaluate_finite _ _ _ _ _ _ E F M S).
  Qed.
  Lemma after_derivatives l : forall h p h' p', (forall x, In x l -> snd x = true) ->
    after c cfg h p l = Some (h', p') -> finite_derivatives c p -> finite_derivatives c p'.
  Proof.
    induction l as [|[theta cg] l IH]; intros h p h' p' T A F; cbn [after] in A; [injection A as <- <-; exact F|].
    assert (X := T (theta, cg) (or_introl eq_refl)). cbn in X. subst cg.
    destruct (evaluate c cfg h p theta true) as [h1 [p1|]] eqn:E; [|discriminate A].
    refine (IH _ _ _ _ _ A _); [intros x Hx; apply T; right; exact Hx|]. exact (evaluate_finite_derivatives _ _ _ _ _ E F).
  Qed.
  Lemma after_objective l : forall h p h' p', after c cfg h p l = Some (h', p') ->
    objective p < length h -> finite (cell h (objective p)) -> finite (punishment cfg) ->
    objective p' < length h' /\ finite (cell h' (objective p')).
  Proof.
    induction l as [|[theta cg] l IH]; intros h p h' p' A L F P; cbn [after] in A; [injection A as <- <-; auto|].
    destruct (evaluate c cfg h p theta cg) as [h1 [p1|]] eqn:E; [|discriminate A].
    destruct (evaluate_heap _ _ _ _ _ _ L E) as [_ [L1 _]].
    destruct (evaluate_objective _ _ _ _ _ _ L E) as [O1 [O2 [O3 O4]]].
    refine (IH _ _ _ _ A L1 _ P). destruct (errors p1) as [|e es] eqn:Er.
    - destruct (O1 eq_refl) as [-> X]. exact X.
    - assert (N : e :: es <> []) by discriminate. destruct (on_error cfg); [destruct (O2 N eq_refl)| |].
      + rewrite (O3 N eq_refl). destruct P as [b ->].
        destruct (ffin _) eqn:X; [apply ffin_iff in X; destruct X as [a ->]|destruct F as [a ->]]; exists (a * b)%R; reflexivity.
      + rewrite (proj1 (O4 N eq_refl)). exact P.
  Qed.

  (** With the first delta as the starting point, it never changes. *)
  Lemma after_first l : starting cfg = First -> forall h p h' p', after c cfg h p l = Some (h', p') -> next_delta p' = next_delta p.
  Proof.
    intro S. induction l as [|[theta cg] l IH]; intros h p h' p' A; cbn [after] in A; [injection A as <- <-; reflexivity|].
    destruct (evaluate c cfg h p theta cg) as [h1 [p1|]] eqn:E; [|discriminate A].
    rewrite (IH _ _ _ _ A). apply evaluate_cases in E. cbv zeta in E. destruct E as [_ [_ [_ [_ [_ [_ [_ [X _]]]]]]]].
    rewrite X, S. reflexivity.
  Qed.
  Lemma after_shapes s l : computes_shapes c s -> forall h p h' p', has_shapes p s ->
    after c cfg h p l = Some (h', p') -> has_shapes p' s.
  Proof.
    intro C. induction l as [|[theta cg] l IH]; intros h p h' p' P A; cbn [after] in A; [injection A as <- <-; exact P|].
    destruct (evaluate c cfg h p theta cg) as [h1 [p1|]] eqn:E; [|discriminate A].
    exact (IH _ _ _ _ (evaluate_shapes s _ _ _ _ _ _ P C E) A).
  Qed.
  Lemma after_location l : forall h p h' p', after c cfg h p l = Some (h', p') -> objective p < length h -> objective p' < length h'.
  Proof.
    induction l as [|[theta cg] l IH]; intros h p h' p' A L; cbn [after] in A; [injection A as <- <-; exact L|].
    destruct (evaluate c cfg h p theta cg) as [h1 [p1|]] eqn:E; [|discriminate A].
    exact (IH _ _ _ _ A (proj1 (proj2 (evaluate_heap _ _ _ _ _ _ L E)))).
  Qed.

  (* ---------- History independence ---------- *)

  Lemma app_nil_all {A} (l l' : list A) : l ++ l' = [] -> l = [] /\ l' = [].
  Proof. apply app_eq_nil. Qed.
  Lemma revert_no_error e last raw : snd (revert e last raw) = [] -> all_finite raw /\ fst (revert e last raw) = raw.
  Proof.
    unfold revert. cbn [fst snd]. destruct (any_bad raw) eqn:B; [discriminate|]. intros _. split; [apply any_bad_false, B|reflexivity].
  Qed.
  Lemma revert_good e last raw : all_finite raw -> revert e last raw = (raw, []).
  Proof. intro F. apply any_bad_false in F. unfold revert. rewrite F. reflexivity. Qed.

  Lemma nans_same l l' : length l = length l' -> nans l = nans l'.
  Proof. revert l'. induction l as [|x l IH]; intros [|y l'] H; try discriminate; [reflexivity|]. cbn. f_equal. apply IH. cbn in H. lia. Qed.
  Lemma zeros_same l l' : length l = length l' -> zeros l = zeros l'.
  Proof. revert l'. induction l as [|x l IH]; intros [|y l'] H; try discriminate; [reflexivity|]. cbn. f_equal. apply IH. cbn in H. lia. Qed.

  Lemma raw_same s p q theta cg : computes_shapes c s -> has_shapes p s -> has_shapes q s ->
    (starting cfg = Logit \/ next_delta p = next_delta q) ->
    all_finite (raw_delta (raw_quantities c cfg p theta cg)) -> all_finite (raw_costs (raw_quantities c cfg p theta cg)) ->
    raw_quantities c cfg q theta cg = raw_quantities c cfg p theta cg.
  Proof.
    intros [C1 [C2 [C3 [C4 _]]]] [P1 [P2 [P3 [P4 [P5 [P6 P7]]]]]] [Q1 [Q2 [Q3 [Q4 [Q5 [Q6 Q7]]]]]] N F K.
    assert (X := nans_same (xi_jacobian p) (xi_jacobian q) (eq_trans P4 (eq_sym Q4))).
    assert (X0 := zeros_same (xi_jacobian p) (xi_jacobian q) (eq_trans P4 (eq_sym Q4))).
    assert (Y := zeros_same (micro_jacobian p) (micro_jacobian q) (eq_trans P5 (eq_sym Q5))).
    assert (Z := zeros_same (omega_jacobian p) (omega_jacobian q) (eq_trans P6 (eq_sym Q6))).
    assert (Z0 := nans_same (omega_jacobian p) (omega_jacobian q) (eq_trans P6 (eq_sym Q6))).
    assert (St : start_delta c cfg q theta = start_delta c cfg p theta).
    { unfold start_delta. destruct (starting cfg); try reflexivity; destruct N as [N|N]; try discriminate; congruence. }
    unfold raw_quantities in *. destruct (random_coefficients c || supply c || micro_moments c || cg)%bool.
    - unfold market_by_market in *. cbv zeta in *. cbn [raw_delta raw_costs] in F, K. rewrite St.
      rewrite (replace_finite (delta p)) in K by (rewrite ?C2; assumption).
      rewrite !(replace_finite (delta p)) by (rewrite ?C2; assumption).
      rewrite !(replace_finite (delta q)) by (rewrite ?C2; assumption).
      rewrite <- X, <- Y, <- Z, <- Z0. destruct (supply c).
      + rewrite !(replace_finite (tilde_costs p)) by (rewrite ?C4; assumption).
        rewrite !(replace_finite (tilde_costs q)) by (rewrite ?C4; assumption). reflexivity.
      + rewrite !andb_false_r. reflexivity.
    - rewrite X0, Y, Z0. reflexivity.
  Qed.

  Lemma evaluate_same s h p h2 q theta cg h' p' : computes_shapes c s -> has_shapes p s -> has_shapes q s ->
    (starting cfg = Logit \/ next_delta p = next_delta q) -> objective p < length h -> objective q < length h2 ->
    evaluate c cfg h p theta cg = (h', Some p') -> errors p' = [] ->
    exists h2' q', evaluate c cfg h2 q theta cg = (h2', Some q') /\ same_reports p' q' /\
      cell h2' (objective q') = cell h' (objective p').
  Proof.
    intros C P Q N Lp Lq E Ne.
    assert (E0 := E). apply evaluate_cases in E. cbv zeta in E. set (r := raw_quantities c cfg p theta cg) in *.
    destruct E as [E1 [E2 [E3 [E4 [E5 [E6 [E7 [E8 E9]]]]]]]]. rewrite Ne in E7. symmetry in E7. unfold new_errors in E7.
    repeat (apply app_nil_all in E7; let X := fresh "X" in destruct E7 as [X E7]).
    assert (F1 : all_finite (raw_delta r)) by (apply (revert_no_error DeltaReversion (delta p)); exact X0).
    assert (F3 : all_finite (raw_costs r)).
    { unfold reverted_costs in X2. destruct (supply c) eqn:S; [exact (proj1 (revert_no_error _ _ _ X2))|].
      unfold r. rewrite (proj2 (raw_absent p theta cg) S). apply nil_finite. }
    assert (R : raw_quantities c cfg q theta cg = r) by (apply (raw_same s); assumption).
    (* reverted quantities of both are raw ones *)
    assert (D : new_delta q r = new_delta p r) by (unfold new_delta; rewrite !(revert_good _ _ _ F1); reflexivity).
    assert (M : reverted_micro q r = reverted_micro p r).
    { unfold reverted_micro in *. destruct (micro_moments c); [|reflexivity].
      assert (F := proj1 (revert_no_error _ _ _ X1)). rewrite !(revert_good _ _ _ F). reflexivity. }
    assert (K : reverted_costs q r = reverted_costs p r).
    { unfold reverted_costs in *. destruct (supply c); [|reflexivity]. rewrite !(revert_good _ _ _ F3). reflexivity. }
    assert (JX : reverted_xi cg q r = reverted_xi cg p r).
    { unfold reverted_xi in *. destruct cg; [|reflexivity].
      assert (F := proj1 (revert_no_error _ _ _ X3)). rewrite !(revert_good _ _ _ F). reflexivity. }
    assert (JM : reverted_micro_jacobian cg q r = reverted_micro_jacobian cg p r).
    { unfold reverted_micro_jacobian in *. destruct (cg && micro_moments c)%bool; [|reflexivity].
      assert (F := proj1 (revert_no_error _ _ _ X4)). rewrite !(revert_good _ _ _ F). reflexivity. }
    assert (JO : reverted_omega cg q r = reverted_omega cg p r).
    { unfold reverted_omega in *. destruct (cg && supply c)%bool; [|reflexivity].
      assert (F := proj1 (revert_no_error _ _ _ X5)). rewrite !(revert_good _ _ _ F). reflexivity. }
    assert (O : new_objective theta q r = new_objective theta p r) by (unfold new_objective; rewrite D, M, K; reflexivity).
    assert (G0 : raw_gradient theta cg q r = raw_gradient theta cg p r) by (unfold raw_gradient; rewrite D, M, K, JX, JM, JO; reflexivity).
    assert (G : new_gradient theta cg q r = new_gradient theta cg p r).
    { unfold new_gradient in *. destruct cg.
      - assert (F := proj1 (revert_no_error _ _ _ E7)). rewrite G0, !(revert_good _ _ _ F). reflexivity.
      - f_equal. apply nans_same. destruct P as [_ [_ [_ [_ [_ [_ ->]]]]]]. destruct Q as [_ [_ [_ [_ [_ [_ ->]]]]]]. reflexivity. }
    assert (Er : new_errors theta cg q r = []).
    { unfold new_errors. rewrite D, M, K, JX, JM, JO, O, G. rewrite X, X0, X1, X2, X3, X4, X5, X6, X7, E7. reflexivity. }
    destruct (evaluate c cfg h2 q theta cg) as [h2' [q'|]] eqn:E2'.
    - exists h2', q'. split; [reflexivity|].
      assert (Obj := evaluate_objective _ _ _ _ _ _ Lq E2'). assert (Obj' := evaluate_objective _ _ _ _ _ _ Lp E0).
      apply evaluate_cases in E2'. cbv zeta in E2'. rewrite R in E2'. cbv zeta in Obj, Obj'. rewrite R in Obj. fold r in Obj'.
      destruct E2' as [B1 [B2 [B3 [B4 [B5 [B6 [B7 [B8 B9]]]]]]]].
      assert (Nq : errors q' = []) by congruence.
      split.
      + unfold same_reports. rewrite E1, E2, E3, E4, E5, E6, B1, B2, B3, B4, B5, B6, Ne, Nq, D, M, K, JX, JM, JO.
        destruct E9 as [[_ [_ [_ ->]]]|[[A _]|[A _]]]; try congruence.
        destruct B9 as [[_ [_ [_ ->]]]|[[A _]|[A _]]]; try congruence. rewrite G. repeat split; reflexivity.
      + rewrite (proj1 (proj1 Obj Nq)), (proj1 (proj1 Obj' Ne)), O. reflexivity.
    - exfalso. apply evaluate_raise in E2'. destruct E2' as [_ E2']. rewrite R in E2'. contradiction.
  Qed.

  (** Records of earlier evaluations. *)
  Lemma evaluations_records l : forall h p h' recs, evaluations c cfg h p l = (h', recs) -> objective p < length h ->
    (on_error cfg <> Revert \/ forall v q, In (v, q) recs -> ~ In ObjectiveReversion (errors q)) ->
    length h <= length h' /\ (forall n, n < length h -> cell h' n = cell h n) /\
    (forall v q, In (v, q) recs -> cell h' (objective q) = v).
  Proof.
    induction l as [|[theta cg] l IH]; intros h p h' recs E L H; cbn [evaluations] in E.
    { injection E as <- <-. split; [lia|]. split; [reflexivity|]. intros v q []. }
    destruct (evaluate c cfg h p theta cg) as [h1 [p1|]] eqn:Ev.
    - destruct (evaluations c cfg h1 p1 l) as [h2 rest] eqn:E2. injection E as <- <-.
      destruct (evaluate_heap _ _ _ _ _ _ L Ev) as [A1 [A2 [A3 [A4 A5]]]].
      assert (H1 : on_error cfg <> Revert \/ ~ In ObjectiveReversion (errors p1)).
      { destruct H as [H|H]; [left; exact H|right]. apply (H (cell h1 (objective p1)) p1). left. reflexivity. }
      assert (H2 : on_error cfg <> Revert \/ forall v q, In (v, q) rest -> ~ In ObjectiveReversion (errors q)).
      { destruct H as [H|H]; [left; exact H|right]. intros v q Hq. apply (H v q). right. exact Hq. }
      destruct (IH _ _ _ _ E2 A2 H2) as [B1 [B2 B3]]. split; [lia|]. split.
      + intros n Hn. rewrite B2 by lia. apply A4; auto.
      + intros v q [X|X]; [|exact (B3 v q X)]. injection X as <- <-. apply B2; auto.
    - injection E as <- <-.
      assert (Hh : exists x, h1 = h ++ [x]).
      { unfold evaluate in Ev. cbv zeta in Ev. match type of Ev with match ?e with _ => _ end = _ => destruct e end; [discriminate Ev|].
        destruct (on_error cfg); try discriminate Ev. injection Ev as <-. eexists; reflexivity. }
      destruct Hh as [x ->]. rewrite app_length. cbn. split; [lia|]. split; [|intros v q []]. intros n Hn. apply cell_app, Hn.
  Qed.
End Evaluate.

(* ---------- GMM gradient ---------- *)

Local Open Scope R_scope.

Lemma deriv_sumn n (f : nat -> R -> R) (d : nat -> R) t :
  (forall k, (k < n)%nat -> derivable_pt_lim (f k) t (d k)) ->
  derivable_pt_lim (fun x => sumn n (fun k => f k x)) t (sumn n d).
Proof.
  induction n as [|n IH]; intro H; cbn [sumn].
  - apply (derivable_pt_lim_const 0).
  - apply (derivable_pt_lim_plus (fun x => sumn n (fun k => f k x)) (f n)); [apply IH; intros; apply H; lia|apply H; lia].
Qed.
Lemma deriv_scal (f : R -> R) a t d : derivable_pt_lim f t d -> derivable_pt_lim (fun x => a * f x) t (a * d).
Proof. intro H. exact (derivable_pt_lim_scal f a t d H). Qed.
Lemma deriv_mult (f g : R -> R) t d e : derivable_pt_lim f t d -> derivable_pt_lim g t e ->
  derivable_pt_lim (fun x => f x * g x) t (d * g t + f t * e).
Proof. intros H K. exact (derivable_pt_lim_mult f g t d e H K). Qed.
Lemma deriv_minus (f g : R -> R) t d e : derivable_pt_lim f t d -> derivable_pt_lim g t e ->
  derivable_pt_lim (fun x => f x - g x) t (d - e).
Proof. intros H K. exact (derivable_pt_lim_minus f g t d e H K). Qed.
Lemma deriv_eq (f : R -> R) t d e : derivable_pt_lim f t d -> d = e -> derivable_pt_lim f t e.
Proof. intros H <-. exact H. Qed.

Lemma quadratic_deriv M W (g : nat -> R -> R) (dg : nat -> R) t :
  (forall i j, (i < M)%nat -> (j < M)%nat -> W i j = W j i) ->
  (forall i, (i < M)%nat -> derivable_pt_lim (g i) t (dg i)) ->
  derivable_pt_lim (fun x => sumn M (fun i => g i x * sumn M (fun j => W i j * g j x))) t
    (2 * sumn M (fun i => dg i * sumn M (fun j => W i j * g j t))).
Proof.
  intros S H.
  eapply deriv_eq.
  - apply (deriv_sumn M (fun i x => g i x * sumn M (fun j => W i j * g j x))
      (fun i => dg i * sumn M (fun j => W i j * g j t) + g i t * sumn M (fun j => W i j * dg j))).
    intros i Hi. apply (deriv_mult (g i) (fun x => sumn M (fun j => W i j * g j x))); [apply H, Hi|].
    apply (deriv_sumn M (fun j x => W i j * g j x)). intros j Hj. apply deriv_scal, H, Hj.
  - rewrite sumn_plus.
    assert (E : sumn M (fun i => g i t * sumn M (fun j => W i j * dg j)) = sumn M (fun i => dg i * sumn M (fun j => W i j * g j t))).
    { transitivity (sumn M (fun i => sumn M (fun j => g i t * (W i j * dg j)))).
      { apply sumn_ext. intros i _. rewrite sumn_scal. reflexivity. }
      rewrite sumn_swap. apply sumn_ext. intros j Hj. rewrite <- sumn_scal. apply sumn_ext. intros i Hi.
      rewrite (S i j Hi Hj). ring. }
    rewrite E. ring.
Qed.

Lemma gmm_directional scale N M P W (g : nat -> R -> R) (G : nat -> nat -> R) (v : nat -> R) t :
  (forall i j, (i < M)%nat -> (j < M)%nat -> W i j = W j i) ->
  (forall i, (i < M)%nat -> derivable_pt_lim (g i) t (sumn P (fun p => G i p * v p))) ->
  derivable_pt_lim (fun x => gmm_value scale N M W (fun i => g i x)) t
    (sumn P (fun p => gmm_gradient_at scale N M W (fun i => g i t) G p * v p)).
Proof.
  intros S H. unfold gmm_value, gmm_gradient_at.
  eapply deriv_eq.
  - apply (deriv_mult (fun x => sumn M (fun i => g i x * sumn M (fun j => W i j * g j x))) (fun _ => objective_scale scale N)).
    + apply (quadratic_deriv M W g _ t S H).
    + apply derivable_pt_lim_const.
  - rewrite Rmult_0_r, Rplus_0_r.
    transitivity (sumn P (fun p => (2 * objective_scale scale N) * sumn M (fun i => v p * (G i p * sumn M (fun j => W i j * g j t))))).
    + rewrite sumn_scal, sumn_swap.
      replace (sumn M (fun i => sumn P (fun p => G i p * v p) * sumn M (fun j => W i j * g j t)))
        with (sumn M (fun j => sumn P (fun i => v i * (G j i * sumn M (fun j0 => W j j0 * g j0 t))))); [ring|].
      apply sumn_ext. intros i _. rewrite <- sumn_scal_r. apply sumn_ext. intros p _. ring.
    + apply sumn_ext. intros p _. rewrite (sumn_scal M (v p)). ring.
Qed.

(* ---------- Concentrated-out parameters ---------- *)

(** Derivative of the objective when some moments depend on linear parameters b that satisfy their first-order
    condition: only the direct effect matters. *)
Lemma envelope M K W (a : nat -> R -> R) (C : nat -> nat -> R -> R) (b : nat -> R -> R)
    (da : nat -> R) (dC : nat -> nat -> R) (db : nat -> R) t :
  (forall i j, (i < M)%nat -> (j < M)%nat -> W i j = W j i) ->
  (forall i, (i < M)%nat -> derivable_pt_lim (a i) t (da i)) ->
  (forall i k, (i < M)%nat -> (k < K)%nat -> derivable_pt_lim (C i k) t (dC i k)) ->
  (forall k, (k < K)%nat -> derivable_pt_lim (b k) t (db k)) ->
  (forall k, (k < K)%nat ->
     sumn M (fun i => C i k t * sumn M (fun j => W i j * (a j t - sumn K (fun k => C j k t * b k t)))) = 0) ->
  derivable_pt_lim (fun x => sumn M (fun i => (a i x - sumn K (fun k => C i k x * b k x)) *
                                sumn M (fun j => W i j * (a j x - sumn K (fun k => C j k x * b k x))))) t
    (2 * sumn M (fun i => (da i - sumn K (fun k => dC i k * b k t)) *
                          sumn M (fun j => W i j * (a j t - sumn K (fun k => C j k t * b k t))))).
Proof.
  intros S Ha HC Hb FOC.
  eapply deriv_eq.
  - apply (quadratic_deriv M W (fun i x => a i x - sumn K (fun k => C i k x * b k x))
      (fun i => da i - sumn K (fun k => dC i k * b k t + C i k t * db k)) t S).
    intros i Hi. apply (deriv_minus (a i) (fun x => sumn K (fun k => C i k x * b k x))); [apply Ha, Hi|].
    apply (deriv_sumn K (fun k x => C i k x * b k x)). intros k Hk. apply (deriv_mult (C i k) (b k)); auto.
  - f_equal.
    set (w := fun i => sumn M (fun j => W i j * (a j t - sumn K (fun k => C j k t * b k t)))).
    transitivity (sumn M (fun i => (da i - sumn K (fun k => dC i k * b k t)) * w i) - sumn K (fun k => db k * sumn M (fun i => C i k t * w i))).
    + transitivity (sumn M (fun i => (da i - sumn K (fun k => dC i k * b k t)) * w i - sumn K (fun k => db k * (C i k t * w i)))).
      * apply sumn_ext. intros i _. unfold w. rewrite sumn_plus.
        replace (sumn K (fun k => C i k t * db k)) with (sumn K (fun k => db k * C i k t)) by (apply sumn_ext; intros; ring).
        fold (w i). assert (X : sumn K (fun k => db k * (C i k t * w i)) = sumn K (fun k => db k * C i k t) * w i).
        { rewrite <- sumn_scal_r. apply sumn_ext. intros. ring. }
        rewrite X. ring.
      * rewrite sumn_minus. f_equal. rewrite sumn_swap. apply sumn_ext. intros k _. rewrite sumn_scal. reflexivity.
    + rewrite (sumn_ext K _ (fun _ => 0)); [rewrite sumn_zero; unfold w; ring|]. intros k Hk. unfold w. rewrite FOC by exact Hk. ring.
Qed.

Lemma sumn_split n m f : sumn (n + m) f = sumn n f + sumn m (fun k => f (n + k)%nat).
Proof.
  induction m as [|m IH]; [rewrite Nat.add_0_r; cbn; ring|]. rewrite Nat.add_succ_r. cbn [sumn]. rewrite IH. ring.
Qed.
Lemma sumn_all_zero n f : (forall k, (k < n)%nat -> f k = 0) -> sumn n f = 0.
Proof. intro H. rewrite (sumn_ext n f (fun _ => 0) H). apply sumn_zero. Qed.

(** The first-order condition of the IV regression. *)
Lemma iv_foc rows MI K X Z W A y :
  inverts K (fun k l => iv_information rows MI X Z W k l) A ->
  forall k, (k < K)%nat ->
  sumn MI (fun i => sumn rows (fun n => X n k * Z n i) *
    sumn MI (fun j => W i j * sumn rows (fun n => Z n j * residual K X (iv_parameters rows MI K X Z W A y) y n))) = 0.
Proof.
  intros Inv k Hk. set (b := iv_parameters rows MI K X Z W A y).
  set (XZ := fun k i => sumn rows (fun n => X n k * Z n i)).
  set (Zy := fun j => sumn rows (fun n => Z n j * y n)).
  set (s := fun l => sumn MI (fun i => XZ l i * sumn MI (fun j => W i j * Zy j))).
  assert (R : forall j, sumn rows (fun n => Z n j * residual K X b y n) = Zy j - sumn K (fun l => XZ l j * b l)).
  { intro j. unfold residual, Zy.
    transitivity (sumn rows (fun n => Z n j * y n) - sumn rows (fun n => sumn K (fun l => Z n j * (X n l * b l)))).
    - rewrite <- sumn_minus. apply sumn_ext. intros n _. rewrite sumn_scal. ring.
    - f_equal. rewrite sumn_swap. apply sumn_ext. intros l _. unfold XZ. rewrite <- sumn_scal_r. apply sumn_ext. intros. ring. }
  transitivity (s k - sumn K (fun l => iv_information rows MI X Z W k l * b l)).
  - transitivity (sumn MI (fun i => XZ k i * sumn MI (fun j => W i j * Zy j) -
        sumn K (fun l => (XZ k i * sumn MI (fun j => W i j * XZ l j)) * b l))).
    + apply sumn_ext. intros i _. fold (XZ k i).
      transitivity (XZ k i * (sumn MI (fun j => W i j * Zy j) - sumn K (fun l => sumn MI (fun j => W i j * XZ l j) * b l))).
      * f_equal. transitivity (sumn MI (fun j => W i j * Zy j - sumn K (fun l => W i j * (XZ l j * b l)))).
        { apply sumn_ext. intros j _. rewrite R, (sumn_scal K (W i j)). ring. }
        rewrite sumn_minus. f_equal. rewrite sumn_swap. apply sumn_ext. intros l _. rewrite <- sumn_scal_r. apply sumn_ext. intros. ring.
      * rewrite Rmult_minus_distr_l. f_equal. rewrite <- sumn_scal. apply sumn_ext. intros. ring.
    + rewrite sumn_minus. f_equal. rewrite sumn_swap. apply sumn_ext. intros l _. rewrite sumn_scal_r. reflexivity.
  - assert (E : sumn K (fun l => iv_information rows MI X Z W k l * b l) = s k); [|rewrite E; ring].
    transitivity (sumn K (fun l' => sumn K (fun l => iv_information rows MI X Z W k l * A l l') * s l')).
    + transitivity (sumn K (fun l => sumn K (fun l' => (iv_information rows MI X Z W k l * A l l') * s l'))).
      * apply sumn_ext. intros l _. unfold b, iv_parameters. rewrite <- sumn_scal. apply sumn_ext. intros l' _.
        change (sumn MI _) with (s l'). ring.
      * rewrite sumn_swap. apply sumn_ext. intros l' _. apply sumn_scal_r.
    + transitivity (sumn K (fun l' => if Nat.eqb l' k then s l' else 0)); [|rewrite sumn_delta by exact Hk; reflexivity].
      apply sumn_ext. intros l' Hl. rewrite Inv by assumption. rewrite (Nat.eqb_sym l' k). destruct (Nat.eqb k l'); ring.
Qed.

Section Concentrated.
  Variables (scale : bool) (N rows MI MM K P : nat) (X Z : nat -> nat -> R) (W A : nat -> nat -> R).
  Variables (y micro : nat -> R -> R) (J JM : nat -> nat -> R) (v : nat -> R) (t : R).
  Hypothesis symmetric : forall i j, (i < MI + MM)%nat -> (j < MI + MM)%nat -> W i j = W j i.
  Hypothesis blocks : forall i m, (i < MI)%nat -> (m < MM)%nat -> W i (MI + m)%nat = 0.
  Hypothesis inverse : inverts K (fun k l => iv_information rows MI X Z W k l) A.
  Hypothesis dy : forall n, (n < rows)%nat -> derivable_pt_lim (y n) t (sumn P (fun p => J n p * v p)).
  Hypothesis dm : forall m, (m < MM)%nat -> derivable_pt_lim (micro m) t (sumn P (fun p => JM m p * v p)).

  Let moments (x : R) := evaluation_moments N rows MI K X Z W A (fun n => y n x) (fun m => micro m x).

  Lemma concentrated_gradient :
    derivable_pt_lim (fun x => gmm_value scale N (MI + MM) W (moments x)) t
      (sumn P (fun p => gmm_gradient_at scale N (MI + MM) W (moments t) (mean_G N rows MI Z J JM) p * v p)).
  Proof.
    set (a := fun i x => if Nat.ltb i MI then iv_moment N rows Z (fun n => y n x) i else micro (i - MI)%nat x).
    set (C := fun (i k : nat) (_ : R) => if Nat.ltb i MI then sumn rows (fun n => Z n i * X n k) / INR N else 0).
    set (b := fun k x => iv_parameters rows MI K X Z W A (fun n => y n x) k).
    set (dyv := fun n => sumn P (fun p => J n p * v p)).
    set (da := fun i => if Nat.ltb i MI then iv_moment N rows Z dyv i else sumn P (fun p => JM (i - MI)%nat p * v p)).
    assert (Mo : forall x i, (i < MI + MM)%nat -> moments x i = a i x - sumn K (fun k => C i k x * b k x)).
    { intros x i Hi. unfold moments, evaluation_moments, stack_moments, a, C. destruct (Nat.ltb i MI) eqn:L.
      - unfold iv_moment, residual. unfold Rdiv.
        transitivity ((sumn rows (fun n => Z n i * y n x) - sumn rows (fun n => sumn K (fun k => Z n i * (X n k * b k x)))) * / INR N).
        + f_equal. rewrite <- sumn_minus. apply sumn_ext. intros n _. rewrite sumn_scal. unfold b. ring.
        + rewrite Rmult_minus_distr_r. f_equal. rewrite sumn_swap, <- sumn_scal_r. apply sumn_ext. intros k _.
          transitivity (sumn rows (fun n => Z n i * X n k) * b k x * / INR N); [|ring]. f_equal. rewrite <- sumn_scal_r.
          apply sumn_ext. intros. ring.
      - rewrite sumn_all_zero; [ring|]. intros. ring. }
    assert (Db : forall k, (k < K)%nat -> derivable_pt_lim (b k) t (iv_parameters rows MI K X Z W A dyv k)).
    { intros k Hk. unfold b, iv_parameters.
      apply (deriv_sumn K (fun l x => A k l * sumn MI (fun i => sumn rows (fun n => X n l * Z n i) *
               sumn MI (fun j => W i j * sumn rows (fun n => Z n j * y n x))))).
      intros l _. apply deriv_scal. apply (deriv_sumn MI (fun i x => sumn rows (fun n => X n l * Z n i) *
               sumn MI (fun j => W i j * sumn rows (fun n => Z n j * y n x)))). intros i _. apply deriv_scal.
      apply (deriv_sumn MI (fun j x => W i j * sumn rows (fun n => Z n j * y n x))). intros j _. apply deriv_scal.
      apply (deriv_sumn rows (fun n x => Z n j * y n x)). intros n Hn. apply deriv_scal, dy, Hn. }
    assert (Da : forall i, (i < MI + MM)%nat -> derivable_pt_lim (a i) t (da i)).
    { intros i Hi. unfold a, da. destruct (Nat.ltb i MI) eqn:L.
      - unfold iv_moment, Rdiv. eapply deriv_eq.
        + apply (deriv_mult (fun x => sumn rows (fun n => Z n i * y n x)) (fun _ => / INR N)).
          * apply (deriv_sumn rows (fun n x => Z n i * y n x)). intros n Hn. apply deriv_scal, dy, Hn.
          * apply derivable_pt_lim_const.
        + unfold dyv. ring.
      - apply dm. apply Nat.ltb_ge in L. lia. }
    assert (FOC : forall k, (k < K)%nat -> sumn (MI + MM) (fun i => C i k t * sumn (MI + MM) (fun j => W i j * (a j t - sumn K (fun k => C j k t * b k t)))) = 0).
    { intros k Hk.
      transitivity (sumn (MI + MM) (fun i => C i k t * sumn (MI + MM) (fun j => W i j * moments t j))).
      { apply sumn_ext. intros i _. f_equal. apply sumn_ext. intros j Hj. rewrite Mo by exact Hj. reflexivity. }
      rewrite sumn_split. rewrite (sumn_all_zero MM) by (intros m _; unfold C; assert (L : Nat.ltb (MI + m) MI = false) by (apply Nat.ltb_ge; lia); rewrite L; ring).
      rewrite Rplus_0_r.
      transitivity (sumn MI (fun i => sumn rows (fun n => X n k * Z n i) *
        sumn MI (fun j => W i j * sumn rows (fun n => Z n j * residual K X (iv_parameters rows MI K X Z W A (fun n => y n t)) (fun n => y n t) n))) * (/ INR N * / INR N)).
      - rewrite <- sumn_scal_r. apply sumn_ext. intros i Hi. unfold C. assert (L : Nat.ltb i MI = true) by (apply Nat.ltb_lt; exact Hi). rewrite L.
        rewrite sumn_split. rewrite (sumn_all_zero MM) by (intros m Hm; rewrite blocks by assumption; ring). rewrite Rplus_0_r.
        transitivity (sumn rows (fun n => X n k * Z n i) * / INR N * (sumn MI (fun j => W i j * sumn rows (fun n => Z n j * residual K X (iv_parameters rows MI K X Z W A (fun n => y n t)) (fun n => y n t) n)) * / INR N)); [|ring].
        f_equal.
        + unfold Rdiv. f_equal. apply sumn_ext. intros. ring.
        + rewrite <- sumn_scal_r. apply sumn_ext. intros j Hj. unfold moments, evaluation_moments, stack_moments.
          assert (L' : Nat.ltb j MI = true) by (apply Nat.ltb_lt; exact Hj). rewrite L'. unfold iv_moment, Rdiv. ring.
      - rewrite (iv_foc rows MI K X Z W A (fun n => y n t) inverse k Hk). ring. }
    assert (E := envelope (MI + MM) K W a C b da (fun _ _ => 0) (fun k => iv_parameters rows MI K X Z W A dyv k) t
      symmetric Da (fun i k _ _ => derivable_pt_lim_const _ t) Db FOC).
    unfold gmm_value, gmm_gradient_at.
    eapply deriv_eq.
    - apply (deriv_mult (fun x => sumn (MI + MM) (fun i => moments x i * sumn (MI + MM) (fun j => W i j * moments x j)))
        (fun _ => objective_scale scale N)); [|apply derivable_pt_lim_const].
      apply (dlim_ext (fun x => sumn (MI + MM) (fun i => (a i x - sumn K (fun k => C i k x * b k x)) *
         sumn (MI + MM) (fun j => W i j * (a j x - sumn K (fun k => C j k x * b k x)))))); [|exact E].
      intro x. apply sumn_ext. intros i Hi. rewrite Mo by exact Hi. f_equal. apply sumn_ext. intros j Hj. rewrite Mo by exact Hj. reflexivity.
    - rewrite Rmult_0_r, Rplus_0_r.
      assert (D : forall i, (i < MI + MM)%nat -> da i - sumn K (fun k => 0 * b k t) = sumn P (fun p => mean_G N rows MI Z J JM i p * v p)).
      { intros i Hi. rewrite sumn_all_zero by (intros; ring). rewrite Rminus_0_r. unfold da, mean_G, stack_moments.
        destruct (Nat.ltb i MI); [|reflexivity]. unfold iv_moment, dyv, Rdiv.
        transitivity (sumn rows (fun n => sumn P (fun p => Z n i * (J n p * v p))) * / INR N).
        { f_equal. apply sumn_ext. intros. rewrite sumn_scal. reflexivity. }
        rewrite sumn_swap, <- sumn_scal_r. apply sumn_ext. intros p _.
        transitivity (sumn rows (fun n => Z n i * J n p) * v p * / INR N); [|ring]. f_equal. rewrite <- sumn_scal_r. apply sumn_ext. intros. ring. }
      transitivity (2 * sumn (MI + MM) (fun i => sumn P (fun p => mean_G N rows MI Z J JM i p * v p) *
        sumn (MI + MM) (fun j => W i j * moments t j)) * objective_scale scale N).
      { f_equal. f_equal. apply sumn_ext. intros i Hi. rewrite D by exact Hi. f_equal. apply sumn_ext. intros j Hj. rewrite Mo by exact Hj. reflexivity. }
      transitivity (sumn P (fun p => (2 * objective_scale scale N) * sumn (MI + MM) (fun i => v p * (mean_G N rows MI Z J JM i p * sumn (MI + MM) (fun j => W i j * moments t j))))).
      + rewrite sumn_scal, sumn_swap.
        replace (sumn (MI + MM) (fun i => sumn P (fun p => mean_G N rows MI Z J JM i p * v p) * sumn (MI + MM) (fun j => W i j * moments t j)))
          with (sumn (MI + MM) (fun i => sumn P (fun p => v p * (mean_G N rows MI Z J JM i p * sumn (MI + MM) (fun j => W i j * moments t j))))); [ring|].
        apply sumn_ext. intros i _. rewrite <- sumn_scal_r. apply sumn_ext. intros p _. ring.
      + apply sumn_ext. intros p _. rewrite (sumn_scal (MI + MM) (v p)). ring.
  Qed.
End Concentrated.

(** Converted Jacobians are derivatives of residuals. *)
Lemma converted_derivative rows MI K P X Z W A (y : nat -> R -> R) J (v : nat -> R) t :
  (forall n, (n < rows)%nat -> derivable_pt_lim (y n) t (sumn P (fun p => J n p * v p))) ->
  forall n, (n < rows)%nat ->
  derivable_pt_lim (fun x => residual K X (iv_parameters rows MI K X Z W A (fun m => y m x)) (fun m => y m x) n) t
    (sumn P (fun p => converted rows MI K X Z W A J n p * v p)).
Proof.
  intros dy n Hn. set (dyv := fun n => sumn P (fun p => J n p * v p)).
  assert (Db : forall k, derivable_pt_lim (fun x => iv_parameters rows MI K X Z W A (fun m => y m x) k) t (iv_parameters rows MI K X Z W A dyv k)).
  { intros k. unfold iv_parameters.
    apply (deriv_sumn K (fun l x => A k l * sumn MI (fun i => sumn rows (fun n => X n l * Z n i) *
             sumn MI (fun j => W i j * sumn rows (fun n => Z n j * y n x))))).
    intros l _. apply deriv_scal. apply (deriv_sumn MI (fun i x => sumn rows (fun n => X n l * Z n i) *
             sumn MI (fun j => W i j * sumn rows (fun n => Z n j * y n x)))). intros i _. apply deriv_scal.
    apply (deriv_sumn MI (fun j x => W i j * sumn rows (fun n => Z n j * y n x))). intros j _. apply deriv_scal.
    apply (deriv_sumn rows (fun n x => Z n j * y n x)). intros m Hm. apply deriv_scal, dy, Hm. }
  assert (L : forall k, iv_parameters rows MI K X Z W A dyv k = sumn P (fun p => iv_parameters rows MI K X Z W A (fun m => J m p) k * v p)).
  { intro k. unfold iv_parameters.
    transitivity (sumn K (fun l => sumn P (fun p => A k l * sumn MI (fun i => sumn rows (fun n => X n l * Z n i) *
             sumn MI (fun j => W i j * sumn rows (fun n => Z n j * J n p))) * v p))).
    2:{ rewrite sumn_swap. apply sumn_ext. intros p _. apply sumn_scal_r. }
    apply sumn_ext. intros l _.
    transitivity (A k l * sumn P (fun p => sumn MI (fun i => sumn rows (fun n => X n l * Z n i) *
             sumn MI (fun j => W i j * sumn rows (fun n => Z n j * J n p))) * v p)).
    2:{ rewrite <- sumn_scal. apply sumn_ext. intros. ring. }
    f_equal.
    transitivity (sumn MI (fun i => sumn P (fun p => sumn rows (fun n => X n l * Z n i) * sumn MI (fun j => W i j * sumn rows (fun n => Z n j * J n p)) * v p))).
    2:{ rewrite sumn_swap. apply sumn_ext. intros p _. apply sumn_scal_r. }
    apply sumn_ext. intros i _.
    transitivity (sumn rows (fun n => X n l * Z n i) * sumn P (fun p => sumn MI (fun j => W i j * sumn rows (fun n => Z n j * J n p)) * v p)).
    2:{ rewrite <- sumn_scal. apply sumn_ext. intros. ring. }
    f_equal.
    transitivity (sumn MI (fun j => sumn P (fun p => W i j * sumn rows (fun n => Z n j * J n p) * v p))).
    2:{ rewrite sumn_swap. apply sumn_ext. intros p _. apply sumn_scal_r. }
    apply sumn_ext. intros j _.
    transitivity (W i j * sumn P (fun p => sumn rows (fun n => Z n j * J n p) * v p)).
    2:{ rewrite <- sumn_scal. apply sumn_ext. intros. ring. }
    f_equal. unfold dyv.
    transitivity (sumn rows (fun n => sumn P (fun p => Z n j * J n p * v p))).
    2:{ rewrite sumn_swap. apply sumn_ext. intros p _. apply sumn_scal_r. }
    apply sumn_ext. intros m _. rewrite <- sumn_scal. apply sumn_ext. intros. ring. }
  unfold residual. eapply deriv_eq.
  - apply (deriv_minus (y n) (fun x => sumn K (fun k => X n k * iv_parameters rows MI K X Z W A (fun m => y m x) k))).
    + apply dy, Hn.
    + apply (deriv_sumn K (fun k x => X n k * iv_parameters rows MI K X Z W A (fun m => y m x) k)). intros k _. apply deriv_scal, Db.
  - unfold converted.
    transitivity (sumn P (fun p => J n p * v p) - sumn P (fun p => sumn K (fun k => X n k * iv_parameters rows MI K X Z W A (fun m => J m p) k) * v p)).
    2:{ rewrite <- sumn_minus. apply sumn_ext. intros. ring. }
    f_equal. transitivity (sumn K (fun k => sumn P (fun p => X n k * iv_parameters rows MI K X Z W A (fun m => J m p) k * v p))).
    2:{ rewrite sumn_swap. apply sumn_ext. intros p _. apply sumn_scal_r. }
    apply sumn_ext. intros k _. rewrite L, <- sumn_scal. apply sumn_ext. intros. ring.
Qed.

(* ---------- Projected gradient ---------- *)

Lemma rltb_iff a b : rltb a b = true <-> a < b.
Proof. unfold rltb. destruct (Rlt_dec a b); split; intro; try assumption; try reflexivity; try discriminate; contradiction. Qed.
Lemma fleb_num a b : fleb (Num a) (Num b) = true <-> a <= b.
Proof.
  unfold fleb, fltb, feqb, rltb, reqb. destruct (Rlt_dec a b); destruct (Req_EM_T a b); cbn; split; intro; try reflexivity; try lra; discriminate.
Qed.

(** A number strictly below an upper bound can be increased, and similarly for a lower bound. *)
Lemma room_above a ub : fltb (Num a) ub = true -> exists e, 0 < e /\ fleb (Num (a + e)) ub = true.
Proof.
  destruct ub as [u| | |]; cbn; intro H; try discriminate.
  - apply rltb_iff in H. exists (u - a). split; [lra|]. apply fleb_num. lra.
  - exists 1. split; [lra|reflexivity].
Qed.
Lemma room_below a lb : fltb lb (Num a) = true -> exists e, 0 < e /\ fleb lb (Num (a - e)) = true.
Proof.
  destruct lb as [u| | |]; cbn; intro H; try discriminate.
  - apply rltb_iff in H. exists (a - u). split; [lra|]. apply fleb_num. lra.
  - exists 1. split; [lra|reflexivity].
Qed.
Lemma fleb_up lb a e : 0 < e -> fleb lb (Num a) = true -> fleb lb (Num (a + e)) = true.
Proof. destruct lb as [u| | |]; intros He H; try reflexivity; try (cbn in H; discriminate). apply fleb_num in H. apply fleb_num. lra. Qed.
Lemma fleb_down ub a e : 0 < e -> fleb (Num a) ub = true -> fleb (Num (a - e)) ub = true.
Proof. destruct ub as [u| | |]; intros He H; try reflexivity; try (cbn in H; discriminate). apply fleb_num in H. apply fleb_num. lra. Qed.
Lemma fleb_strict a b : fleb a b = true -> fltb a b = false -> fleb b a = true.
Proof.
  unfold fleb. intros H E. rewrite E in H. cbn in H. destruct a as [x| | |], b as [x0| | |]; cbn in *; try discriminate; try reflexivity.
  unfold reqb in *. destruct (Req_EM_T x x0); [|discriminate]. subst. rewrite orb_true_iff. right.
  destruct (Req_EM_T x0 x0); [reflexivity|contradiction].
Qed.
Lemma bounds_between a lb ub : fltb lb ub = true -> fleb lb (Num a) = true -> fleb (Num a) ub = true ->
  fltb lb (Num a) = true \/ fltb (Num a) ub = true.
Proof.
  destruct lb as [l| | |], ub as [u| | |]; cbn; intros H L U; try discriminate; auto.
  apply rltb_iff in H. destruct (Rlt_dec l a) as [X|X]; [left; apply rltb_iff; exact X|].
  right. apply rltb_iff. lra.
Qed.

(** The three cases of an element. *)
Lemma projected_cases theta lb ub g : fltb lb ub = true -> fleb lb (Num theta) = true -> fleb (Num theta) ub = true ->
  (fltb lb (Num theta) = true /\ fltb (Num theta) ub = true /\ projected_element theta lb ub g = g) \/
  (fltb lb (Num theta) = false /\ fltb (Num theta) ub = true /\ fleb (Num theta) lb = true /\ projected_element theta lb ub g = Rmin 0 g) \/
  (fltb lb (Num theta) = true /\ fltb (Num theta) ub = false /\ fleb ub (Num theta) = true /\ projected_element theta lb ub g = Rmax 0 g).
Proof.
  intros H L U. unfold projected_element. destruct (fltb lb (Num theta)) eqn:A; destruct (fltb (Num theta) ub) eqn:B; cbn [andb].
  - left. auto.
  - right. right. assert (X := fleb_strict _ _ U B). repeat split; auto. rewrite X.
    replace (fleb (Num theta) lb) with false; [reflexivity|]. symmetry. destruct lb as [l| | |]; cbn in A |- *; try discriminate; try reflexivity.
    unfold fleb, fltb, feqb. apply rltb_iff in A. unfold rltb, reqb. destruct (Rlt_dec theta l); [lra|]. destruct (Req_EM_T theta l); [lra|reflexivity].
  - right. left. assert (X := fleb_strict _ _ L A). rewrite X. auto.
  - destruct (bounds_between _ _ _ H L U) as [X|X]; congruence.
Qed.

Lemma change_one P g theta p e : (p < P)%nat ->
  sumn P (fun k => g k * ((if Nat.eqb k p then theta k + e else theta k) - theta k)) = g p * e.
Proof.
  intro Hp. transitivity (sumn P (fun k => if Nat.eqb k p then g k * e else 0)).
  - apply sumn_ext. intros k _. destruct (Nat.eqb k p); ring.
  - rewrite sumn_delta by exact Hp. reflexivity.
Qed.
Lemma box_change P lb ub theta p e : in_box P lb ub theta ->
  fleb (lb p) (Num (theta p + e)) = true -> fleb (Num (theta p + e)) (ub p) = true ->
  in_box P lb ub (fun k => if Nat.eqb k p then theta k + e else theta k).
Proof.
  intros B L U k Hk. destruct (Nat.eqb k p) eqn:E; [apply Nat.eqb_eq in E; subst; auto|apply B; exact Hk].
Qed.

Lemma projected_zero P theta lb ub g : (0 < P)%nat -> in_box P lb ub theta ->
  (forall p, (p < P)%nat -> fltb (lb p) (ub p) = true) ->
  (projected_norm P theta lb ub g = 0 <-> first_order_optimal P lb ub theta g).
Proof.
  intros HP B D.
  assert (N : projected_norm P theta lb ub g = 0 <-> forall p, (p < P)%nat -> projected_element (theta p) (lb p) (ub p) (g p) = 0).
  { unfold projected_norm. split.
    - intros Z p Hp. assert (X := maxn_ge (P - 1) (fun p => Rabs (projected_element (theta p) (lb p) (ub p) (g p))) p ltac:(lia)).
      cbv beta in X. rewrite Z in X. assert (Y := Rabs_pos (projected_element (theta p) (lb p) (ub p) (g p))).
      apply Rabs_eq_0 || idtac. destruct (Req_dec (projected_element (theta p) (lb p) (ub p) (g p)) 0) as [E|E]; [exact E|].
      apply Rabs_pos_lt in E. lra.
    - intro Z. apply Rle_antisym.
      + apply maxn_lub. intros k Hk. rewrite Z by lia. rewrite Rabs_R0. lra.
      + destruct (maxn_attained (P - 1) (fun p => Rabs (projected_element (theta p) (lb p) (ub p) (g p)))) as [k [_ ->]]. apply Rabs_pos. }
  rewrite N. split.
  - intros Z x Bx. apply sumn_nonneg. intros p Hp. destruct (B p Hp) as [L U]. destruct (Bx p Hp) as [Lx Ux]. specialize (Z p Hp).
    destruct (projected_cases (theta p) (lb p) (ub p) (g p) (D p Hp) L U) as [(_ & _ & E)|[(_ & _ & T & E)|(_ & _ & T & E)]]; rewrite E in Z.
    + rewrite Z. lra.
    + assert (0 <= g p) by (unfold Rmin in Z; destruct (Rle_dec 0 (g p)); lra).
      assert (theta p <= x p).
      { destruct (lb p) as [l| | |]; cbn in T; try discriminate. apply fleb_num in Lx. apply fleb_num in L. apply fleb_num in T. lra. }
      apply Rmult_le_pos; lra.
    + assert (g p <= 0) by (unfold Rmax in Z; destruct (Rle_dec 0 (g p)); lra).
      assert (x p <= theta p).
      { destruct (ub p) as [l| | |]; cbn in T; try discriminate. apply fleb_num in Ux. apply fleb_num in U. apply fleb_num in T. lra. }
      replace (g p * (x p - theta p)) with (- g p * (theta p - x p)) by ring. apply Rmult_le_pos; lra.
  - intros O p Hp. destruct (B p Hp) as [L U].
    assert (Up : fltb (Num (theta p)) (ub p) = true -> 0 <= g p).
    { intro A. destruct (room_above _ _ A) as [e [He X]].
      assert (Y := O _ (box_change P lb ub theta p e B (fleb_up _ _ _ He L) X)). cbv beta in Y; rewrite change_one in Y by exact Hp.
      apply Rmult_le_reg_r with e; lra. }
    assert (Dn : fltb (lb p) (Num (theta p)) = true -> g p <= 0).
    { intro A. destruct (room_below _ _ A) as [e [He X]].
      assert (Y := O _ (box_change P lb ub theta p (- e) B X (fleb_down _ _ _ He U))). cbv beta in Y; rewrite change_one in Y by exact Hp.
      apply Rmult_le_reg_r with e; lra. }
    destruct (projected_cases (theta p) (lb p) (ub p) (g p) (D p Hp) L U) as [(A & C & E)|[(A & C & T & E)|(A & C & T & E)]]; rewrite E.
    + specialize (Up C). specialize (Dn A). lra.
    + specialize (Up C). unfold Rmin. destruct (Rle_dec 0 (g p)); lra.
    + specialize (Dn A). unfold Rmax. destruct (Rle_dec 0 (g p)); lra.
Qed.

(* ---------- Statements about evaluations ---------- *)

Section Statements.
  Local Open Scope nat_scope.
  Context {Theta : Type}.
  Variable c : computation Theta.
  Variable cfg : configuration.

  Lemma other_app l l' : other l -> other l' -> other (l ++ l').
  Proof. intros A B e H. apply in_app_or in H. destruct H; auto. Qed.
  Lemma other_nil : other []. Proof. intros e []. Qed.
  Lemma own_from_other p theta cg : only_other c -> own_errors c cfg p theta cg.
  Proof.
    intros (O1 & O2 & O3 & O4 & O5 & O6 & O7). unfold own_errors. set (r := raw_quantities c cfg p theta cg). intros e He.
    assert (X : other (raw_errors r)).
    { unfold r, raw_quantities. destruct (random_coefficients c || supply c || micro_moments c || cg)%bool; [|apply other_nil].
      unfold market_by_market. cbn [raw_errors]. repeat apply other_app; auto.
      - destruct cg; [apply O3|apply other_nil].
      - destruct (micro_moments c); [apply O2|apply other_nil].
      - destruct (cg && micro_moments c)%bool; [apply O4|apply other_nil].
      - destruct (supply c); [apply O5|apply other_nil].
      - destruct (cg && supply c)%bool; [apply O6|apply other_nil]. }
    split; intro I; [apply X in I|apply O7 in I]; destruct I as [n E]; exact (He n E).
  Qed.

  Lemma count_recorded e errs values : count_occ error_eq_dec errs e = (if any_bad values then 1 else 0) -> recorded e errs values.
  Proof.
    intro H. destruct (any_bad values) eqn:B; split; intro F.
    - apply any_bad_false in F. congruence.
    - exact H.
    - apply (count_occ_not_In error_eq_dec). exact H.
    - apply any_bad_false in B. contradiction.
  Qed.

  Lemma evaluate_records h p theta cg h' p' : only_other c -> evaluate c cfg h p theta cg = (h', Some p') ->
    let r := raw_quantities c cfg p theta cg in
    recorded DeltaReversion (errors p') (raw_delta r) /\
    (micro_moments c = true -> recorded MicroReversion (errors p') (raw_micro r)) /\
    (supply c = true -> recorded CostsReversion (errors p') (raw_costs r)) /\
    (cg = true -> recorded XiJacobianReversion (errors p') (raw_xi_jacobian r)) /\
    (cg = true -> micro_moments c = true -> recorded MicroJacobianReversion (errors p') (raw_micro_jacobian r)) /\
    (cg = true -> supply c = true -> recorded OmegaJacobianReversion (errors p') (raw_omega_jacobian r)) /\
    recorded ObjectiveReversion (errors p') [fst (gmm_objective c theta (delta p') (tilde_costs p') (micro p'))] /\
    (cg = true -> recorded GradientReversion (errors p')
       (gmm_gradient c theta (delta p') (tilde_costs p') (micro p') (xi_jacobian p') (omega_jacobian p') (micro_jacobian p'))).
  Proof.
    intros O E r. assert (C := evaluate_counts c cfg h p theta cg h' p' E (own_from_other p theta cg O)). cbv zeta in C.
    fold r in C. destruct C as (C1 & C2 & C3 & C4 & C5 & C6 & C7 & C8).
    assert (V := evaluate_cases c cfg h p theta cg h' p' E). cbv zeta in V. fold r in V.
    destruct V as (V1 & V2 & V3 & V4 & V5 & V6 & _).
    split; [apply count_recorded; auto|]. split; [intros; apply count_recorded; auto|]. split; [intros; apply count_recorded; auto|].
    split; [intros; apply count_recorded; auto|]. split; [intros; apply count_recorded; auto|].
    split; [intros; apply count_recorded; auto|]. split.
    - apply count_recorded. rewrite C7. unfold new_objective. rewrite V1, V2, V3. cbn [any_bad existsb].
      destruct (ffin (fst (gmm_objective c theta (fst (new_delta p r)) (fst (reverted_costs c p r)) (fst (reverted_micro c p r)))));
        reflexivity.
    - intros. apply count_recorded. rewrite V1, V2, V3, V4, V5, V6. apply C8. assumption.
  Qed.

  Lemma last_starts h p theta cg h' p' theta' : starting cfg = Last -> evaluate c cfg h p theta cg = (h', Some p') ->
    start_delta c cfg p' theta' = delta p'.
  Proof.
    intros S E. assert (V := evaluate_cases c cfg h p theta cg h' p' E). cbv zeta in V.
    destruct V as (V1 & V2 & V3 & V4 & V5 & V6 & V7 & V8 & _). unfold start_delta. rewrite S in *. rewrite V8, V1. reflexivity.
  Qed.
  Lemma first_starts l h p h' p' theta : starting cfg = First -> after c cfg h p l = Some (h', p') ->
    start_delta c cfg p' theta = next_delta p.
  Proof. intros S E. unfold start_delta. rewrite S. eapply after_first; eauto. Qed.

  Lemma history_independent s h p l1 h1 p1 l2 h2 p2 theta cg h1' q1 :
    starting cfg <> Last -> computes_shapes c s -> has_shapes p s -> objective p < length h ->
    after c cfg h p l1 = Some (h1, p1) -> after c cfg h p l2 = Some (h2, p2) ->
    evaluate c cfg h1 p1 theta cg = (h1', Some q1) -> errors q1 = [] ->
    exists h2' q2, evaluate c cfg h2 p2 theta cg = (h2', Some q2) /\ same_reports q1 q2 /\
      cell h2' (objective q2) = cell h1' (objective q1).
  Proof.
    intros S C Sh L A1 A2 E Er.
    apply (evaluate_same c cfg s h1 p1 h2 p2 theta cg h1' q1); auto.
    - eapply after_shapes; eauto.
    - eapply after_shapes; eauto.
    - destruct (starting cfg) eqn:Q; [right|contradiction|left; reflexivity].
      rewrite (after_first c cfg l1 Q h p h1 p1 A1), (after_first c cfg l2 Q h p h2 p2 A2). reflexivity.
    - eapply after_location; eauto.
    - eapply after_location; eauto.
  Qed.

  Lemma evaluate_reverts_shapes s h p theta cg h' p' : has_shapes p s -> computes_shapes c s ->
    evaluate c cfg h p theta cg = (h', Some p') ->
    let r := raw_quantities c cfg p theta cg in
    reverted (delta p) (raw_delta r) (delta p') /\
    (micro_moments c = true -> reverted (micro p) (raw_micro r) (micro p')) /\
    (supply c = true -> reverted (tilde_costs p) (raw_costs r) (tilde_costs p')) /\
    (cg = true -> reverted (xi_jacobian p) (raw_xi_jacobian r) (xi_jacobian p')) /\
    (cg = true -> micro_moments c = true -> reverted (micro_jacobian p) (raw_micro_jacobian r) (micro_jacobian p')) /\
    (cg = true -> supply c = true -> reverted (omega_jacobian p) (raw_omega_jacobian r) (omega_jacobian p')).
  Proof.
    intros H C E. apply (evaluate_reverts c cfg h p theta cg h' p' E). apply (raw_shapes c cfg s p theta cg H C).
  Qed.

  Lemma error_values h p theta cg h' p' : objective p < length h -> evaluate c cfg h p theta cg = (h', Some p') ->
    let o := fst (gmm_objective c theta (delta p') (tilde_costs p') (micro p')) in
    (errors p' = [] -> cell h' (objective p') = o /\ finite o) /\
    (errors p' <> [] -> on_error cfg <> Raise) /\
    (errors p' <> [] -> on_error cfg = Revert ->
       (finite o -> cell h' (objective p') = fmul o (punishment cfg)) /\
       (~ finite o -> cell h' (objective p') = fmul (cell h (objective p)) (punishment cfg))) /\
    (errors p' <> [] -> on_error cfg = Punish -> cell h' (objective p') = punishment cfg /\
       (cg = true -> gradient p' = zeros (gradient p))).
  Proof.
    intros L E o. assert (H := evaluate_objective c cfg h p theta cg h' p' L E). cbv zeta in H.
    assert (V := evaluate_cases c cfg h p theta cg h' p' E). cbv zeta in V. destruct V as (V1 & V2 & V3 & _).
    assert (O : fst (new_objective c theta p (raw_quantities c cfg p theta cg)) = o) by (unfold o, new_objective; rewrite V1, V2, V3; reflexivity).
    rewrite O in H. destruct H as (H1 & H2 & H3 & H4). repeat split; auto; intros.
    - apply H1. assumption.
    - apply H1. assumption.
    - rewrite H3 by assumption. apply ffin_iff in H5. rewrite H5. reflexivity.
    - rewrite H3 by assumption. apply ffin_not in H5. rewrite H5. reflexivity.
    - apply H4; assumption.
    - apply H4; assumption.
  Qed.

  Lemma evaluate_raising h p theta cg : on_error cfg = Raise ->
    (forall h' p', evaluate c cfg h p theta cg = (h', Some p') -> errors p' = []).
  Proof.
    intros R h' p' E. assert (V := evaluate_cases c cfg h p theta cg h' p' E). cbv zeta in V.
    destruct V as (_ & _ & _ & _ & _ & _ & _ & _ & [V|[V|V]]); destruct V as (V & V'); [exact V| |]; destruct V' as (V' & _); congruence.
  Qed.
End Statements.
