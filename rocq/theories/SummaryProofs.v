(** Proofs about summaries. *)
From Coq Require Import Ascii String Reals Lra Lia ZArith List Arith Bool.
From Verif Require Import FltModel TableModel FormatModel DisplayModel SummaryModel SummarySpec.
Import ListNotations.
Local Open Scope R_scope.

(* ---------- Largest norms ---------- *)

Definition low (m : flt) : Prop := m = NInf \/ exists a, m = Num a.
Lemma python_max_low m a c : low m -> low (python_max m (Num a)) /\ (at_most (python_max m (Num a)) c <-> at_most m c /\ a <= c).
Proof.
  intros [ -> |(b & ->)]; unfold python_max; cbn [fltb].
  - split; [right; eauto|]. cbn. tauto.
  - unfold rltb. destruct (Rlt_dec b a); (split; [right; eauto|]); cbn; split; try tauto; try lra.
Qed.
Lemma norms_market l m c : low m ->
  low (fold_left (fun m norm => if ffin norm then python_max m norm else m) l m) /\
  (at_most (fold_left (fun m norm => if ffin norm then python_max m norm else m) l m) c <-> at_most m c /\ forall a, In (Num a) l -> a <= c).
Proof.
  revert m. induction l as [|x l IH]; intros m Hm; cbn [fold_left].
  - split; [exact Hm|]. cbn. tauto.
  - destruct x as [a| | |]; cbn [ffin].
    + destruct (python_max_low m a c Hm) as (L & E). destruct (IH _ L) as (L2 & E2). split; [exact L2|]. rewrite E2, E. cbn [In]. split.
      * intros [[H1 H2] H3]. split; [exact H1|]. intros b [Eb|Hb]; [injection Eb as <-; exact H2|apply H3, Hb].
      * intros [H1 H2]. split; [split; [exact H1|apply H2; left; reflexivity]|intros b Hb; apply H2; right; exact Hb].
    + destruct (IH m Hm) as (L2 & E2). split; [exact L2|]. rewrite E2. cbn [In]. split; intros [H1 H2]; (split; [exact H1|]); intros b Hb; apply H2; [destruct Hb as [F|Hb]; [discriminate F|exact Hb]|right; exact Hb].
    + destruct (IH m Hm) as (L2 & E2). split; [exact L2|]. rewrite E2. cbn [In]. split; intros [H1 H2]; (split; [exact H1|]); intros b Hb; apply H2; [destruct Hb as [F|Hb]; [discriminate F|exact Hb]|right; exact Hb].
    + destruct (IH m Hm) as (L2 & E2). split; [exact L2|]. rewrite E2. cbn [In]. split; intros [H1 H2]; (split; [exact H1|]); intros b Hb; apply H2; [destruct Hb as [F|Hb]; [discriminate F|exact Hb]|right; exact Hb].
Qed.
Lemma norms_all l c : at_most (max_norm l) c <-> forall market a, In market l -> In (Num a) market -> a <= c.
Proof.
  unfold max_norm. assert (G : forall m, low m -> at_most (fold_left (fun m market => fold_left (fun m norm => if ffin norm then python_max m norm else m) market m) l m) c <->
    at_most m c /\ forall market a, In market l -> In (Num a) market -> a <= c).
  { induction l as [|x l IH]; intros m Hm; cbn [fold_left].
    - cbn. firstorder.
    - destruct (norms_market x m c Hm) as (L & E). rewrite (IH _ L), E. cbn [In]. split.
      + intros [[H1 H2] H3]. split; [exact H1|]. intros market a [ <- |Hm2] Ha; [apply H2, Ha|exact (H3 market a Hm2 Ha)].
      + intros [H1 H2]. split; [split; [exact H1|intros a Ha; apply (H2 x); auto]|intros market a Hm2 Ha; apply (H2 market); auto]. }
  rewrite (G NInf (or_introl eq_refl)). cbn. tauto.
Qed.

Lemma fmax_num a b : fmax (Num a) (Num b) = Num (Rmax a b).
Proof. unfold fmax. cbn [fnan orb fltb]. unfold rltb, Rmax. destruct (Rlt_dec a b), (Rle_dec a b); try reflexivity; try lra. f_equal. lra. Qed.
Lemma fmin_num a b : fmin (Num a) (Num b) = Num (Rmin a b).
Proof. unfold fmin. cbn [fnan orb fltb]. unfold rltb, Rmin. destruct (Rlt_dec b a), (Rle_dec a b); try reflexivity; try lra. Qed.
Lemma fold_fmax l a : vfin l = true -> exists r, fold_left fmax l (Num a) = Num r /\ forall c, r <= c <-> a <= c /\ forall b, In (Num b) l -> b <= c.
Proof.
  revert a. induction l as [|x l IH]; intros a F; cbn [fold_left].
  - exists a. split; [reflexivity|]. cbn. intro c. tauto.
  - cbn in F. apply andb_true_iff in F. destruct F as [Fx F]. destruct x as [b| | |]; try discriminate Fx. rewrite fmax_num. destruct (IH (Rmax a b) F) as (r & E & H). exists r. split; [exact E|].
    intro c. rewrite H. cbn [In]. split.
    + intros [H1 H2]. assert (T1 := Rmax_l a b). assert (T2 := Rmax_r a b). split; [lra|]. intros y [Ey|Hy]; [injection Ey as <-; lra|apply H2, Hy].
    + intros [H1 H2]. split; [apply Rmax_lub; [exact H1|apply H2; left; reflexivity]|intros y Hy; apply H2; right; exact Hy].
Qed.
Lemma fold_fmin l a : vfin l = true -> exists r, fold_left fmin l (Num a) = Num r /\ forall c, c <= r <-> c <= a /\ forall b, In (Num b) l -> c <= b.
Proof.
  revert a. induction l as [|x l IH]; intros a F; cbn [fold_left].
  - exists a. split; [reflexivity|]. cbn. intro c. tauto.
  - cbn in F. apply andb_true_iff in F. destruct F as [Fx F]. destruct x as [b| | |]; try discriminate Fx. rewrite fmin_num. destruct (IH (Rmin a b) F) as (r & E & H). exists r. split; [exact E|].
    intro c. rewrite H. cbn [In]. split.
    + intros [H1 H2]. assert (T1 := Rmin_l a b). assert (T2 := Rmin_r a b). split; [lra|]. intros y [Ey|Hy]; [injection Ey as <-; lra|apply H2, Hy].
    + intros [H1 H2]. split; [apply Rmin_glb; [exact H1|apply H2; left; reflexivity]|intros y Hy; apply H2; right; exact Hy].
Qed.

Lemma firm_norm_finite v : v <> [] -> vfin v = true -> exists r, firm_norm v = Num r /\ forall c, r <= c <-> forall b, In (Num b) v -> Rabs b <= c.
Proof.
  intros N F. destruct v as [|x v]; [contradiction|]. cbn in F. apply andb_true_iff in F. destruct F as [Fx F]. destruct x as [a| | |]; try discriminate Fx.
  unfold firm_norm. cbn [map array_max absolute]. assert (F2 : vfin (map absolute v) = true).
  { clear - F. induction v as [|y v IH]; [reflexivity|]. cbn in *. apply andb_true_iff in F. destruct F as [Fy F]. destruct y; try discriminate Fy. exact (IH F). }
  destruct (fold_fmax (map absolute v) (Rabs a) F2) as (r & E & H). exists r. split; [exact E|]. intro c. rewrite H. cbn [In]. split.
  - intros [H1 H2] b [Eb|Hb]; [injection Eb as <-; exact H1|]. apply H2. apply in_map_iff. exists (Num b). split; [reflexivity|exact Hb].
  - intro H1. split; [apply H1; left; reflexivity|]. intros b Hb. apply in_map_iff in Hb. destruct Hb as (y & Ey & Hy). destruct y as [y| | |]; cbn in Ey; try discriminate Ey. injection Ey as <-. apply H1. right. exact Hy.
Qed.
Definition bad (x : flt) : Prop := x = PInf \/ x = NaN.
Lemma fmax_bad x y : bad x \/ bad y -> x <> NInf -> y <> NInf -> bad (fmax x y).
Proof.
  intros H Nx Ny. unfold fmax, bad in *. destruct x as [a| | |], y as [b| | |]; cbn [fnan orb fltb]; auto; try contradiction; destruct H as [[F|F]|[F|F]]; discriminate F.
Qed.
Lemma fold_bad l x : (forall y, In y l -> y <> NInf) -> x <> NInf -> bad x \/ (exists y, In y l /\ bad y) -> bad (fold_left fmax l x).
Proof.
  revert x. induction l as [|z l IH]; intros x Hl Nx H; cbn [fold_left].
  - destruct H as [H|(y & [] & _)]. exact H.
  - assert (Nz : z <> NInf) by (apply Hl; left; reflexivity).
    assert (Nf : fmax x z <> NInf) by (unfold fmax; destruct (fnan x || fnan z); [discriminate|]; destruct (fltb x z); assumption).
    apply IH; [intros y Hy; apply Hl; right; exact Hy|exact Nf|]. destruct H as [H|(y & [ <- |Hy] & B)].
    + left. apply fmax_bad; auto.
    + left. apply fmax_bad; auto.
    + right. exists y. auto.
Qed.
Lemma firm_norm_not_finite v : v = [] \/ vfin v = false -> ffin (firm_norm v) = false.
Proof.
  intro H. destruct v as [|x v]; [reflexivity|]. destruct H as [H|H]; [discriminate H|]. unfold firm_norm. cbn [map array_max].
  assert (B : bad (fold_left fmax (map absolute v) (absolute x))).
  { assert (NA : forall y, absolute y <> NInf) by (intro y; destruct y; discriminate). apply fold_bad; [intros y Hy; apply in_map_iff in Hy; destruct Hy as (z & <- & _); apply NA|apply NA|].
    cbn in H. apply andb_false_iff in H. destruct H as [H|H].
    - left. destruct x; try discriminate H; unfold bad; cbn; auto.
    - right. clear x. induction v as [|y v IH]; [discriminate H|]. cbn in H. apply andb_false_iff in H. destruct H as [H|H].
      + exists (absolute y). split; [left; reflexivity|]. destruct y; try discriminate H; unfold bad; cbn; auto.
      + destruct (IH H) as (z & Hz & Bz). exists z. split; [right; exact Hz|exact Bz]. }
  destruct B as [ -> | -> ]; reflexivity.
Qed.
Lemma displayed_norm g c : at_most (max_norm (map (map firm_norm) g)) c <-> forall v, of_firm g v -> vfin v = true -> forall b, In (Num b) v -> Rabs b <= c.
Proof.
  rewrite norms_all. split.
  - intros H v (market & Hm & Hv) F b Hb. assert (N : v <> []) by (intros ->; destruct Hb). destruct (firm_norm_finite v N F) as (r & E & Hr).
    apply (proj1 (Hr c)); [|exact Hb]. apply (H (map firm_norm market)); [apply in_map, Hm|]. rewrite <- E. apply in_map, Hv.
  - intros H market a Hm Ha. apply in_map_iff in Hm. destruct Hm as (m & <- & Hm). apply in_map_iff in Ha. destruct Ha as (v & Ev & Hv).
    destruct (vfin v) eqn:F; [|assert (T := firm_norm_not_finite v (or_intror F)); rewrite Ev in T; discriminate T].
    destruct v as [|x v]; [discriminate Ev|]. destruct (firm_norm_finite (x :: v) ltac:(discriminate) F) as (r & E & Hr). rewrite E in Ev. injection Ev as <-.
    apply Hr. apply H; [exists m; auto|exact F].
Qed.

(* ---------- Extreme eigenvalues ---------- *)

Definition high (m : flt) : Prop := m = PInf \/ exists a, m = Num a.
Lemma python_min_high m a c : high m -> high (python_min m (Num a)) /\ (at_least (python_min m (Num a)) c <-> at_least m c /\ c <= a).
Proof.
  intros [ -> |(b & ->)]; unfold python_min; cbn [fltb].
  - split; [right; eauto|]. cbn. tauto.
  - unfold rltb. destruct (Rlt_dec a b); (split; [right; eauto|]); cbn; split; try tauto; try lra.
Qed.
Lemma array_extremes v : existsb ffin v = true -> vfin v = true ->
  exists r s, array_min v = Num r /\ array_max v = Num s /\ (forall c, c <= r <-> forall b, In (Num b) v -> c <= b) /\ (forall c, s <= c <-> forall b, In (Num b) v -> b <= c).
Proof.
  intros E F. destruct v as [|x v]; [discriminate E|]. cbn in F. apply andb_true_iff in F. destruct F as [Fx F]. destruct x as [a| | |]; try discriminate Fx. cbn [array_min array_max].
  destruct (fold_fmin v a F) as (r & Er & Hr). destruct (fold_fmax v a F) as (s & Es & Hs). exists r, s. split; [exact Er|]. split; [exact Es|]. split; intro c; [rewrite Hr|rewrite Hs]; cbn [In]; split.
  - intros [H1 H2] b [Eb|Hb]; [injection Eb as <-; exact H1|apply H2, Hb].
  - intro H. split; [apply H; left; reflexivity|intros b Hb; apply H; right; exact Hb].
  - intros [H1 H2] b [Eb|Hb]; [injection Eb as <-; exact H1|apply H2, Hb].
  - intro H. split; [apply H; left; reflexivity|intros b Hb; apply H; right; exact Hb].
Qed.
Lemma none_finite v b : existsb ffin v = false -> ~ In (Num b) v.
Proof. intros E H. assert (T : existsb ffin v = true) by (apply existsb_exists; exists (Num b); auto). rewrite E in T. discriminate T. Qed.
Lemma extremes_market market m c : (forall v, In v market -> vfin v = true \/ existsb ffin v = false) -> high (fst m) -> low (snd m) ->
  let e := fold_left extreme_step market m in
  high (fst e) /\ low (snd e) /\
  (at_least (fst e) c <-> at_least (fst m) c /\ forall v b, In v market -> In (Num b) v -> c <= b) /\
  (at_most (snd e) c <-> at_most (snd m) c /\ forall v b, In v market -> In (Num b) v -> b <= c).
Proof.
  revert m. induction market as [|v market IH]; intros m Ho Hh Hl; cbn [fold_left]; cbv zeta.
  - cbn [In]. split; [exact Hh|]. split; [exact Hl|]. split; split; firstorder.
  - assert (Ho' : forall v, In v market -> vfin v = true \/ existsb ffin v = false) by (intros w Hw; apply Ho; right; exact Hw).
    unfold extreme_step at 2 4 6 8. destruct (existsb ffin v) eqn:E.
    + destruct (Ho v (or_introl eq_refl)) as [F|F]; [|rewrite E in F; discriminate F]. destruct (array_extremes v E F) as (r & s & -> & -> & Hr & Hs).
      destruct (python_min_high (fst m) r c Hh) as (Hh2 & E2). destruct (python_max_low (snd m) s c Hl) as (Hl2 & E3).
      destruct (IH (python_min (fst m) (Num r), python_max (snd m) (Num s)) Ho' Hh2 Hl2) as (A1 & A2 & A3 & A4). cbn [fst snd] in *.
      split; [exact A1|]. split; [exact A2|]. split; [rewrite A3, E2|rewrite A4, E3]; cbn [In]; split.
      * intros [[B1 B2] B3]. split; [exact B1|]. intros w b [ <- |Hw] Hb; [exact (proj1 (Hr c) B2 b Hb)|exact (B3 w b Hw Hb)].
      * intros [B1 B2]. split; [split; [exact B1|apply Hr; intros b Hb; apply (B2 v); auto]|intros w b Hw Hb; apply (B2 w); auto].
      * intros [[B1 B2] B3]. split; [exact B1|]. intros w b [ <- |Hw] Hb; [exact (proj1 (Hs c) B2 b Hb)|exact (B3 w b Hw Hb)].
      * intros [B1 B2]. split; [split; [exact B1|apply Hs; intros b Hb; apply (B2 v); auto]|intros w b Hw Hb; apply (B2 w); auto].
    + destruct (IH m Ho' Hh Hl) as (A1 & A2 & A3 & A4). split; [exact A1|]. split; [exact A2|]. split; [rewrite A3|rewrite A4]; cbn [In]; split; intros [B1 B2]; (split; [exact B1|]); intros w b Hw Hb.
      * destruct Hw as [ <- |Hw]; [contradiction (none_finite v b E Hb)|exact (B2 w b Hw Hb)].
      * apply (B2 w); auto.
      * destruct Hw as [ <- |Hw]; [contradiction (none_finite v b E Hb)|exact (B2 w b Hw Hb)].
      * apply (B2 w); auto.
Qed.
Lemma displayed_eigenvalues l c : all_or_none l ->
  (at_least (fst (extreme_eigenvalues l)) c <-> forall v b, of_firm l v -> In (Num b) v -> c <= b) /\
  (at_most (snd (extreme_eigenvalues l)) c <-> forall v b, of_firm l v -> In (Num b) v -> b <= c).
Proof.
  intro Ho. unfold extreme_eigenvalues.
  assert (G : forall m, high (fst m) -> low (snd m) -> let e := fold_left (fun m market => fold_left extreme_step market m) l m in
    (at_least (fst e) c <-> at_least (fst m) c /\ forall v b, of_firm l v -> In (Num b) v -> c <= b) /\
    (at_most (snd e) c <-> at_most (snd m) c /\ forall v b, of_firm l v -> In (Num b) v -> b <= c)).
  { induction l as [|x l IH]; intros m Hh Hl; cbv zeta; cbn [fold_left].
    - split; split; try tauto; intro H; (split; [exact H|]); intros v b (market & [] & _).
    - assert (Hx : forall v, In v x -> vfin v = true \/ existsb ffin v = false) by (intros v Hv; apply Ho; exists x; split; [left; reflexivity|exact Hv]).
      assert (Ho' : all_or_none l) by (intros v (market & Hm & Hv); apply Ho; exists market; split; [right; exact Hm|exact Hv]).
      destruct (extremes_market x m c Hx Hh Hl) as (A1 & A2 & A3 & A4). destruct (IH Ho' _ A1 A2) as [B1 B2]. rewrite B1, B2, A3, A4. split; split.
      + intros [[C1 C2] C3]. split; [exact C1|]. intros v b (market & [ <- |Hm] & Hv) Hb; [exact (C2 v b Hv Hb)|apply (C3 v b); [exists market; auto|exact Hb]].
      + intros [C1 C2]. split; [split; [exact C1|intros v b Hv Hb; apply (C2 v b); [exists x; split; [left; reflexivity|exact Hv]|exact Hb]]|].
        intros v b (market & Hm & Hv) Hb. apply (C2 v b); [exists market; split; [right; exact Hm|exact Hv]|exact Hb].
      + intros [[C1 C2] C3]. split; [exact C1|]. intros v b (market & [ <- |Hm] & Hv) Hb; [exact (C2 v b Hv Hb)|apply (C3 v b); [exists market; auto|exact Hb]].
      + intros [C1 C2]. split; [split; [exact C1|intros v b Hv Hb; apply (C2 v b); [exists x; split; [left; reflexivity|exact Hv]|exact Hb]]|].
        intros v b (market & Hm & Hv) Hb. apply (C2 v b); [exists market; split; [right; exact Hm|exact Hv]|exact Hb]. }
  destruct (G (PInf, NInf) (or_introl eq_refl) (or_introl eq_refl)) as [G1 G2]. rewrite G1, G2. cbn. split; split; tauto.
Qed.

(* ---------- Counts ---------- *)

Lemma failures_zero (markets : list stats) : count_true (map (fun s => negb (fst s)) markets) = 0%nat <-> forall s, In s markets -> fst s = true.
Proof.
  unfold count_true. induction markets as [|s l IH]; cbn [map count_occ In]; [split; [intros _ s []|reflexivity]|].
  destruct s as [conv rest]. cbn [fst]. destruct conv; cbn [negb].
  - destruct (bool_dec false true) as [F|_]; [discriminate F|]. rewrite IH. split; [intros H s [ <- |Hs]; [reflexivity|apply H, Hs]|intros H s Hs; apply H; right; exact Hs].
  - destruct (bool_dec true true) as [_|F]; [|contradiction (F eq_refl)]. split; [discriminate|]. intro H. discriminate (H (false, rest) (or_introl eq_refl)).
Qed.

(* ---------- Tables ---------- *)

Definition two (a b : string) : label := [lit a; lit b].
Lemma tables_lengths digits seconds markets gradients eigenvalues r P converged iterations evaluations fp contraction draws its evs :
  length (simulation_header gradients eigenvalues) = length (simulation_cells digits seconds markets gradients eigenvalues) /\
  length (summary_header r) = length (summary_cells digits r) /\
  length (cumulative_header P contraction) = length (cumulative_cells seconds P converged iterations evaluations fp contraction) /\
  length (bootstrapped_header its evs) = length (bootstrapped_cells seconds draws its evs).
Proof.
  unfold simulation_header, simulation_cells, summary_header, summary_cells, cumulative_header, cumulative_cells, bootstrapped_header, bootstrapped_cells.
  rewrite !app_length. split; [|split; [|split]].
  - destruct gradients, eigenvalues; reflexivity.
  - destruct (shows_norm r), (shows_hessian r), (one_eigenvalue r), (finite_shares_bounds r), (finite_costs_bounds r), (shows_weights r), (shows_covariances r); reflexivity.
  - destruct (0 <? P), (shows_contraction contraction); reflexivity.
  - destruct (shows_fixed_point its evs); reflexivity.
Qed.
Lemma simulation_shown digits seconds markets gradients eigenvalues :
  let show (a b : string) := shown [lit a; lit b] (simulation_header gradients eigenvalues) (simulation_cells digits seconds markets gradients eigenvalues) in
  show "Computation"%string "Time"%string = Some (format_seconds seconds) /\
  show "Fixed Point"%string "Failures"%string = Some (number_of (count_true (map (fun s => negb (fst s)) markets))) /\
  show "Fixed Point"%string "Iterations"%string = Some (number_of (list_sum (map stat_iterations markets))) /\
  show "Contraction"%string "Evaluations"%string = Some (number_of (list_sum (map stat_evaluations markets))) /\
  show "Profit Gradients"%string "Max Norm"%string = option_map (fun g => format_number digits (max_norm (map (map firm_norm) g))) gradients /\
  show "Profit Hessians"%string "Min Eigenvalue"%string = option_map (fun e => format_number digits (fst (extreme_eigenvalues e))) eigenvalues /\
  show "Profit Hessians"%string "Max Eigenvalue"%string = option_map (fun e => format_number digits (snd (extreme_eigenvalues e))) eigenvalues.
Proof. cbv zeta. unfold simulation_header, simulation_cells. destruct gradients, eigenvalues; repeat split; reflexivity. Qed.
Lemma summary_table (bounded norm hessian one shares costs used covs : bool) (c1 c2 c3 c4 c5 c6 c7 c8 c9 c10 : text) :
  let type := if bounded then lit "Reduced"%string else [] in
  let header :=
    [[lit "GMM"%string; lit "Step"%string]; [lit "Objective"%string; lit "Value"%string]] ++
    (if norm then [if bounded then [lit "Projected"%string; lit "Gradient Norm"%string] else [lit "Gradient"%string; lit "Norm"%string]] else []) ++
    (if hessian
     then if one then [[type; lit "Hessian"%string]]
       else [[type ++ lit " Hessian"%string; lit "Min Eigenvalue"%string]; [type ++ lit " Hessian"%string; lit "Max Eigenvalue"%string]]
     else []) ++
    (if shares then [[lit "Clipped"%string; lit "Shares"%string]] else []) ++
    (if costs then [[lit "Clipped"%string; lit "Costs"%string]] else []) ++
    (if used then [[lit "Weighting Matrix"%string; lit "Condition Number"%string]] else []) ++
    (if covs then [[lit "Covariance Matrix"%string; lit "Condition Number"%string]] else []) in
  let cells := [c1; c2] ++ (if norm then [c3] else []) ++ (if hessian then if one then [c4] else [c5; c6] else []) ++
    (if shares then [c7] else []) ++ (if costs then [c8] else []) ++ (if used then [c9] else []) ++ (if covs then [c10] else []) in
  let show (a b : string) := shown [lit a; lit b] header cells in
  let when (b : bool) c := if b then Some c else None in
  show "GMM"%string "Step"%string = Some c1 /\
  show "Objective"%string "Value"%string = Some c2 /\
  show "Gradient"%string "Norm"%string = when (norm && negb bounded) c3 /\
  show "Projected"%string "Gradient Norm"%string = when (norm && bounded) c3 /\
  show ""%string "Hessian"%string = when (hessian && one && negb bounded) c4 /\
  show "Reduced"%string "Hessian"%string = when (hessian && one && bounded) c4 /\
  show " Hessian"%string "Min Eigenvalue"%string = when (hessian && negb one && negb bounded) c5 /\
  show " Hessian"%string "Max Eigenvalue"%string = when (hessian && negb one && negb bounded) c6 /\
  show "Reduced Hessian"%string "Min Eigenvalue"%string = when (hessian && negb one && bounded) c5 /\
  show "Reduced Hessian"%string "Max Eigenvalue"%string = when (hessian && negb one && bounded) c6 /\
  show "Clipped"%string "Shares"%string = when shares c7 /\
  show "Clipped"%string "Costs"%string = when costs c8 /\
  show "Weighting Matrix"%string "Condition Number"%string = when used c9 /\
  show "Covariance Matrix"%string "Condition Number"%string = when covs c10.
Proof.
  destruct bounded, norm, hessian, one, shares, costs, used, covs; vm_compute; repeat split.
Qed.
Lemma summary_shown digits r :
  let show (a b : string) := shown [lit a; lit b] (summary_header r) (summary_cells digits r) in
  let when (b : bool) c := if b then Some c else None in
  let bounded := bounds_on_parameters r in
  let several := negb (one_eigenvalue r) in
  show "GMM"%string "Step"%string = Some (number_of (result_step r)) /\
  show "Objective"%string "Value"%string = Some (format_number digits (result_objective r)) /\
  show "Gradient"%string "Norm"%string = when (shows_norm r && negb bounded) (format_number digits (projected_norm r)) /\
  show "Projected"%string "Gradient Norm"%string = when (shows_norm r && bounded) (format_number digits (projected_norm r)) /\
  show ""%string "Hessian"%string = when (shows_hessian r && one_eigenvalue r && negb bounded) (format_number digits (reduced_hessian r)) /\
  show "Reduced"%string "Hessian"%string = when (shows_hessian r && one_eigenvalue r && bounded) (format_number digits (reduced_hessian r)) /\
  show " Hessian"%string "Min Eigenvalue"%string = when (shows_hessian r && several && negb bounded) (format_number digits (array_min (hessian_eigenvalues r))) /\
  show " Hessian"%string "Max Eigenvalue"%string = when (shows_hessian r && several && negb bounded) (format_number digits (array_max (hessian_eigenvalues r))) /\
  show "Reduced Hessian"%string "Min Eigenvalue"%string = when (shows_hessian r && several && bounded) (format_number digits (array_min (hessian_eigenvalues r))) /\
  show "Reduced Hessian"%string "Max Eigenvalue"%string = when (shows_hessian r && several && bounded) (format_number digits (array_max (hessian_eigenvalues r))) /\
  show "Clipped"%string "Shares"%string = when (finite_shares_bounds r) (number_of (count_true (shares_clipped r))) /\
  show "Clipped"%string "Costs"%string = when (finite_costs_bounds r) (number_of (count_true (costs_clipped r))) /\
  show "Weighting Matrix"%string "Condition Number"%string = when (0 <? result_step r) (format_number digits (condition_number (weights_cond r) (weights r))) /\
  show "Covariance Matrix"%string "Condition Number"%string = when (existsb ffin (covariances r) && (1 <? length (covariances r))) (format_number digits (condition_number (covariances_cond r) (covariances r))).
Proof.
  exact (summary_table (bounds_on_parameters r) (shows_norm r) (shows_hessian r) (one_eigenvalue r) (finite_shares_bounds r) (finite_costs_bounds r) (shows_weights r) (shows_covariances r) _ _ _ _ _ _ _ _ _ _).
Qed.
Lemma cumulative_shown seconds P converged iterations evaluations fp contraction :
  let show (a b : string) := shown [lit a; lit b] (cumulative_header P contraction) (cumulative_cells seconds P converged iterations evaluations fp contraction) in
  show "Computation"%string "Time"%string = Some (format_seconds seconds) /\
  show "Optimizer"%string "Converged"%string = (if 0 <? P then Some (lit (if converged then "Yes"%string else "No"%string)) else None) /\
  show "Optimization"%string "Iterations"%string = (if 0 <? P then Some (number_of iterations) else None) /\
  show "Objective"%string "Evaluations"%string = Some (number_of evaluations) /\
  (list_sum contraction <> 0%nat -> show "Fixed Point"%string "Iterations"%string = Some (number_of (list_sum fp)) /\ show "Contraction"%string "Evaluations"%string = Some (number_of (list_sum contraction))) /\
  (list_sum contraction = 0%nat -> show "Fixed Point"%string "Iterations"%string = None /\ show "Contraction"%string "Evaluations"%string = None).
Proof.
  cbv zeta. assert (E : shows_contraction contraction = negb (list_sum contraction =? 0)).
  { unfold shows_contraction. induction contraction as [|n l IH]; [reflexivity|]. cbn [existsb]. rewrite IH. change (list_sum (n :: l)) with (n + list_sum l)%nat. destruct n as [|n]; reflexivity. }
  unfold cumulative_header, cumulative_cells. change total with list_sum. rewrite E. destruct (0 <? P), converged; destruct (Nat.eqb_spec (list_sum contraction) 0) as [Z|Z]; cbn [negb]; (do 4 (split; [reflexivity|])); (split; intro H; [try contradiction (H Z)|try contradiction (Z H)]; split; reflexivity).
Qed.
Lemma bootstrapped_shown seconds draws its evs :
  let show (a b : string) := shown [lit a; lit b] (bootstrapped_header its evs) (bootstrapped_cells seconds draws its evs) in
  let sum_all x := list_sum (map list_sum x) in
  show "Computation"%string "Time"%string = Some (format_seconds seconds) /\ show "Bootstrap"%string "Draws"%string = Some (number_of draws) /\
  (sum_all its <> 0%nat \/ sum_all evs <> 0%nat -> show "Fixed Point"%string "Iterations"%string = Some (number_of (sum_all its)) /\ show "Contraction"%string "Evaluations"%string = Some (number_of (sum_all evs))) /\
  (sum_all its = 0%nat /\ sum_all evs = 0%nat -> show "Fixed Point"%string "Iterations"%string = None /\ show "Contraction"%string "Evaluations"%string = None).
Proof.
  cbv zeta. unfold bootstrapped_header, bootstrapped_cells, shows_fixed_point. change total with list_sum.
  destruct (list_sum (map list_sum its)) as [|a], (list_sum (map list_sum evs)) as [|b]; cbn [Nat.ltb Nat.leb orb]; (split; [reflexivity|]); (split; [reflexivity|]); (split; [intro H; try (destruct H as [H|H]; contradiction (H eq_refl)); split; reflexivity|intros [H1 H2]; try discriminate H1; try discriminate H2; split; reflexivity]).
Qed.
Lemma array_entries {M T} (f : stats -> T) (iteration_stats : nat -> M -> stats) draws markets t d m : nth_error markets t = Some m -> (d < draws)%nat ->
  exists row, nth_error (bootstrapped_array f iteration_stats draws markets) t = Some row /\ length row = draws /\ nth_error row d = Some (f (iteration_stats d m)).
Proof.
  intros H Hd. unfold bootstrapped_array. exists (map (fun d => f (iteration_stats d m)) (seq 0 draws)). split; [|split].
  - rewrite nth_error_map, H. reflexivity.
  - rewrite map_length, seq_length. reflexivity.
  - rewrite nth_error_map. rewrite (nth_error_nth' (seq 0 draws) 0%nat) by (rewrite seq_length; exact Hd). rewrite seq_nth by exact Hd. reflexivity.
Qed.
Lemma array_sum {M} (f : stats -> nat) (iteration_stats : nat -> M -> stats) draws markets :
  list_sum (map list_sum (bootstrapped_array f iteration_stats draws markets)) = list_sum (map (fun d => list_sum (map (fun t => f (iteration_stats d t)) markets)) (seq 0 draws)).
Proof.
  unfold bootstrapped_array. rewrite map_map. generalize (seq 0 draws). intro ds. induction markets as [|t l IH]; cbn [map].
  - induction ds as [|d ds IHd]; [reflexivity|]. cbn [map]. change (list_sum (?a :: ?b)) with (a + list_sum b)%nat. exact IHd.
  - change (list_sum (?a :: ?b)) with (a + list_sum b)%nat. rewrite IH. clear IH. induction ds as [|d ds IHd]; [reflexivity|]. cbn [map].
    change (list_sum (?a :: ?b)) with (a + list_sum b)%nat in *. change (list_sum (?a :: ?b)) with (a + list_sum b)%nat. rewrite <- IHd. lia.
Qed.
