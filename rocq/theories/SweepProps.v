(** C173: displayed progress of fixed point iteration. *)
From Coq Require Import Ascii String Reals List Arith Bool Lia Lra.
From Verif Require Import FltModel TableModel FormatModel FormatSpec ProgressModel DisplayModel DisplaySpec DisplayProofs SummaryModel SummaryProofs DemandModel SweepModel SweepProofs.
Import ListNotations.

(** Each evaluation has a row with its market, counts and largest change, and how much less the latter is than the smallest before, if it is less, beneath labels that tell what is solved for; labels are repeated every 50 evaluations. *)
Theorem C173_rows digits s market l n e : nth_error l n = Some e -> exists cells,
  nth_error (sweeps_displayed digits s market l) n = Some ((sweep_evaluations e - 1) mod 50 =? 0, cells) /\ length cells = length (sweep_header s) /\
  under (sweep_header s) cells [[]; lit "Market"] market /\
  (exists t, under (sweep_header s) cells [lit "Contraction"; lit "Iterations"] t /\ value t = Z.of_nat (sweep_iterations e)) /\
  (exists t, under (sweep_header s) cells [lit "Contraction"; lit "Evaluations"] t /\ value t = Z.of_nat (sweep_evaluations e)) /\
  (forall ft, s = MeanUtilities ft true -> exists t, under (sweep_header s) cells [lit "Clipped"; lit "Shares"] t /\ value t = Z.of_nat (count_occ bool_dec (sweep_clipped e) true)) /\
  (forall ft b, s = MeanUtilities ft b -> valid_fp_type true ft = true -> under (sweep_header s) cells [lit "Delta"; lit "Max Norm"] (format_number digits (change e))) /\
  (s = Prices -> under (sweep_header s) cells [lit "Prices"; lit "Max Norm"] (format_number digits (change e))) /\
  exists t, under (sweep_header s) cells [lit "Max Norm"; lit "Improvement"] t /\
    (forall d, improves (map change (firstn n l)) (change e) d -> t = format_number digits (Num d)) /\
    (~ (exists d, improves (map change (firstn n l)) (change e) d) -> exists k, t = repeat blank k).
Proof.
  intro E. assert (L : n < length l) by (apply nth_error_Some; rewrite E; discriminate).
  assert (Lr : n < length (map snd (running PInf (map change l)))) by (rewrite map_length, running_length, map_length; exact L).
  set (sm := nth n (map snd (running PInf (map change l))) NaN).
  assert (Es : nth_error (map snd (running PInf (map change l))) n = Some sm) by (apply nth_error_nth'; exact Lr).
  exists (sweep_cells digits s market e sm). split.
  { unfold sweeps_displayed. rewrite sweeps_running, nth_error_map.
    assert (C : forall (A B : Type) (a : list A) (b : list B) k x y, nth_error a k = Some x -> nth_error b k = Some y -> nth_error (combine a b) k = Some (x, y)).
    { clear. induction a as [|x0 a IH]; intros b k x y Ea Eb; [destruct k; discriminate|]. destruct b as [|y0 b]; [destruct k; discriminate|]. destruct k as [|k]; cbn in *; [congruence|apply IH; assumption]. }
    rewrite (C _ _ _ _ n e sm E Es). reflexivity. }
  assert (N : forall k, value (number_of k) = Z.of_nat k) by exact number_of_value.
  assert (I : forall d, improvement sm (change e) = Some d <-> improves (map change (firstn n l)) (change e) d).
  { intro d. assert (R := running_improves (map change l) [] PInf n d state_start ltac:(rewrite map_length; exact L)).
    assert (X : nth n (map change l) NaN = change e) by (apply nth_error_nth; rewrite nth_error_map, E; reflexivity).
    rewrite X, app_nil_l, firstn_map in R. rewrite <- R. clear R.
    assert (Lp : n < length (running PInf (map change l))) by (rewrite running_length, map_length; exact L).
    rewrite (nth_indep _ None (improvement (snd (NaN, NaN)) (fst (NaN, NaN)))) by (rewrite map_length; exact Lp).
    rewrite (map_nth (fun x => improvement (snd x) (fst x))).
    assert (F : fst (nth n (running PInf (map change l)) (NaN, NaN)) = change e) by (rewrite <- X, <- (map_nth fst), running_fst; reflexivity).
    assert (S : snd (nth n (running PInf (map change l)) (NaN, NaN)) = sm) by (rewrite <- (map_nth snd); reflexivity).
    rewrite F, S. reflexivity. }
  assert (T : forall t, t = improvement_cell digits sm (change e) -> (forall d, improves (map change (firstn n l)) (change e) d -> t = format_number digits (Num d)) /\ (~ (exists d, improves (map change (firstn n l)) (change e) d) -> exists k, t = repeat blank k)).
  { intros t ->. split.
    - intros d H. apply I in H. unfold improvement_cell. rewrite H. reflexivity.
    - intro H. unfold improvement_cell. destruct (improvement sm (change e)) as [d|] eqn:Ed; [exfalso; apply H; exists d; apply I; reflexivity|]. eexists. reflexivity. }
  clearbody sm. clear - N T. unfold under, sweep_header, sweep_cells.
  assert (D : forall ft, valid_fp_type true ft = true -> DemandModel.contains "linear" ft = true).
  { intros ft V. unfold valid_fp_type in V. apply andb_true_iff in V. destruct V as [V _]. apply existsb_exists in V. destruct V as (x & I & Q). apply String.eqb_eq in Q. subst x. cbn in I. destruct I as [<-|[<-|[<-|[<-|[]]]]]; reflexivity. }
  destruct s as [ft [|]|]; cbn [app length combine]; (split; [reflexivity|]); (split; [left; reflexivity|]);
    (split; [eexists; split; [right; left; reflexivity|apply N]|]); (split; [eexists; split; [right; right; left; reflexivity|apply N]|]).
  - split; [intros ft' _; eexists; split; [right; right; right; left; reflexivity|apply N]|]. split; [intros ft' b Q V; injection Q as -> <-; rewrite (D ft' V); right; right; right; right; left; reflexivity|].
    split; [discriminate|]. eexists. split; [right; right; right; right; right; left; reflexivity|apply T; reflexivity].
  - split; [discriminate|]. split; [intros ft' b Q V; injection Q as -> <-; rewrite (D ft' V); right; right; right; left; reflexivity|].
    split; [discriminate|]. eexists. split; [right; right; right; right; left; reflexivity|apply T; reflexivity].
  - split; [discriminate|]. split; [discriminate|]. split; [intros _; right; right; right; left; reflexivity|]. eexists. split; [right; right; right; right; left; reflexivity|apply T; reflexivity].
Qed.
Print Assumptions C173_rows.

(** The displayed norm is the largest change. *)
Theorem C173_norm e : vsub (x_after e) (x_before e) <> [] -> vfin (vsub (x_after e) (x_before e)) = true ->
  exists r, change e = Num r /\ forall c, (r <= c <-> forall b, In (Num b) (vsub (x_after e) (x_before e)) -> Rabs b <= c)%R.
Proof. exact (change_finite e). Qed.
Print Assumptions C173_norm.

(** Displayed improvements add up to how much the smallest norm is less than the first. *)
Theorem C173_total l x m : first_number (map change l) x -> least (map change l) m -> exists ds, length ds = length l /\
  (forall n d, n < length l -> (nth n ds None = Some d <-> improves (map change (firstn n l)) (nth n (map change l) NaN) d)) /\ sum_shown ds = (x - m)%R.
Proof.
  intros F M. exists (map (fun x => improvement (snd x) (fst x)) (running PInf (map change l))). split; [rewrite map_length, running_length, map_length; reflexivity|]. split.
  - intros n d L. rewrite <- firstn_map. apply (running_improves (map change l) [] PInf n d state_start). rewrite map_length. exact L.
  - exact (running_total_start (map change l) [] x m state_start F M).
Qed.
Print Assumptions C173_total.

(** Three evaluations in a market with two products, the second of which fails. *)
Definition three_sweeps : list sweep :=
  [mk_sweep [Num 0; Num 0] [Num 3; Num (-4)] 1 1 [true; false]; mk_sweep [Num 3; Num (-4)] [NaN; Num 1] 2 2 [false; false]; mk_sweep [Num 3; Num (-4)] [Num 4; Num (-4)] 3 3 [false; false]].
Example C173_applies : map change three_sweeps = [Num 4; NaN; Num 1] /\ first_number (map change three_sweeps) 4 /\ least (map change three_sweeps) 1.
Proof.
  assert (E : map change three_sweeps = [Num 4; NaN; Num 1]).
  { unfold three_sweeps, change. cbn. rewrite !Rplus_0_r || idtac. unfold fmax. cbn. unfold rltb.
    repeat match goal with |- context [Rabs ?a] => first [rewrite (Rabs_right a) by lra | rewrite (Rabs_left a) by lra] end.
    repeat match goal with |- context [Rlt_dec ?a ?b] => destruct (Rlt_dec a b); try (exfalso; lra) end. repeat f_equal; lra. }
  split; [exact E|]. rewrite E. split.
  - exists [], [NaN; Num 1]. split; [reflexivity|]. intros y [].
  - split; [right; right; left; reflexivity|]. split; [intros [H|[H|[H|[]]]]; discriminate H|]. intros y [H|[H|[H|[]]]]; try discriminate H; injection H as <-; lra.
Qed.
