(** Proofs about bounds. *)
From Coq Require Import Reals Lra Lia List Bool Arith.
From Verif Require Import Base FltModel IterModel ConvModel ConvRun DemandSpec DemandModel DemandProofs DemandElim DemandShares SupplyModel DerivModel EndoModel RateSpec
  BoundModel BoundSpec.
Import ListNotations.
Local Open Scope R_scope.

(* ---------- Coercion ---------- *)

Lemma fill_one v x : fill v [x] = [documented v x].
Proof. destruct x; reflexivity. Qed.
Lemma fill_length v l : length (fill v l) = length l.
Proof. apply map_length. Qed.
Lemma number_elements h g x : number h g x <-> elements h g = [x].
Proof.
  destruct g as [|y|l|a]; cbn.
  - split; intros H; [rewrite H; reflexivity|congruence].
  - split; intros H; [rewrite H; reflexivity|congruence].
  - split.
    + intros [-> |[-> ->]]; reflexivity.
    + destruct l as [|[y|] [|]]; cbn; try discriminate; intros H; injection H as <-; auto.
  - split; auto.
Qed.
Lemma read_lower h l u : separate l u -> read NInf (fill_in_place PInf (fill_in_place NInf h l) u) l = fill NInf (elements h l).
Proof.
  intros S. destruct l as [|x|k|a]; cbn [read]; try (destruct u; reflexivity). cbn [fill_in_place elements].
  destruct u as [|y|k|b]; cbn [fill_in_place]; unfold write; rewrite ?Nat.eqb_refl; try reflexivity.
  cbn in S. destruct (Nat.eqb_spec a b); [congruence|]. reflexivity.
Qed.
Lemma read_upper h l u : separate l u -> read PInf (fill_in_place PInf (fill_in_place NInf h l) u) u = fill PInf (elements h u).
Proof.
  intros S. destruct u as [|x|k|b]; cbn [read]; try (destruct l; reflexivity). cbn [fill_in_place elements]. unfold write at 1. rewrite Nat.eqb_refl.
  destruct l as [|y|k|a]; cbn [fill_in_place]; unfold write; try reflexivity. cbn in S. destruct (Nat.eqb_spec b a); [congruence|]. reflexivity.
Qed.
Lemma coerce_accepts h l u x y : separate l u ->
  (fst (coerce_bounds h (Some [l; u])) = Bounds x y <->
   exists a b, number h l a /\ number h u b /\ x = documented NInf a /\ y = documented PInf b /\ fltb y x = false).
Proof.
  intros S. cbn [coerce_bounds fst]. rewrite (read_lower h l u S), (read_upper h l u S). split.
  - destruct (elements h l) as [|a [|]] eqn:El; cbn [fill map]; try discriminate. destruct (elements h u) as [|b [|]] eqn:Eu; cbn [fill map]; try discriminate.
    replace (if fnan a then NInf else a) with (documented NInf a) by (destruct a; reflexivity). replace (if fnan b then PInf else b) with (documented PInf b) by (destruct b; reflexivity).
    destruct (fltb (documented PInf b) (documented NInf a)) eqn:Ef; [discriminate|]. intros H. injection H as <- <-. exists a, b.
    rewrite !number_elements. repeat split; try assumption.
  - intros [a [b [A [B [-> [-> F]]]]]]. apply number_elements in A. apply number_elements in B. rewrite A, B, !fill_one, F. reflexivity.
Qed.
Lemma coerce_memory h l u a : (forall x, In x (h a) -> x <> NaN) \/ (l <> Floats a /\ u <> Floats a) -> snd (coerce_bounds h (Some [l; u])) a = h a.
Proof.
  assert (F : forall v k, (forall x, In x k -> x <> NaN) -> fill v k = k).
  { intros v k H. unfold fill. rewrite <- (map_id k) at 2. apply map_ext_in. intros x I. specialize (H x I). destruct x; try reflexivity. congruence. }
  assert (W : forall v g m, (forall x, In x (m a) -> x <> NaN) \/ g <> Floats a -> fill_in_place v m g a = m a).
  { intros v g m H. destruct g as [|x|k|b]; try reflexivity. cbn. unfold write. destruct (Nat.eqb_spec a b) as [-> |]; [|reflexivity].
    destruct H as [H|H]; [apply F; exact H|congruence]. }
  intros H. cbn [coerce_bounds snd]. destruct H as [H|[H1 H2]].
  - rewrite W; rewrite W; auto.
  - rewrite W; rewrite W; auto.
Qed.

(* ---------- Costs ---------- *)

Lemma clipped_outside bounds c : cost_clipped bounds c = true <-> outside bounds c.
Proof.
  unfold cost_clipped, outside. rewrite orb_true_iff. destruct bounds as [[lo|] [hi|]]; cbn [fst snd];
  repeat match goal with |- context [Rlt_dec ?a ?b] => destruct (Rlt_dec a b) end; split; intros H;
  repeat match goal with
  | H : _ \/ _ |- _ => destruct H
  | H : exists _, _ |- _ => destruct H as [? [? ?]]
  | H : Some _ = Some _ |- _ => injection H as <-
  end; try discriminate; try lra; eauto.
Qed.
Lemma clip_within bounds c : proper bounds -> within bounds (clip_cost bounds c) /\ (within bounds c -> clip_cost bounds c = c) /\
  (forall d, within bounds d -> Rabs (clip_cost bounds c - c) <= Rabs (d - c)).
Proof.
  intros P. unfold within, clip_cost. destruct bounds as [[lo|] [hi|]]; cbn [fst snd].
  - specialize (P lo hi eq_refl). split; [|split].
    + split; intros z E; injection E as <-; [apply Rmin_case; [apply Rmax_r|lra]|apply Rmin_r].
    + intros [A B]. specialize (A _ eq_refl). specialize (B _ eq_refl). rewrite Rmax_left, Rmin_left; lra.
    + intros d [A B]. specialize (A _ eq_refl). specialize (B _ eq_refl).
      destruct (Rle_dec c lo); [rewrite (Rmax_right c lo), (Rmin_left lo hi) by lra|rewrite (Rmax_left c lo) by lra; destruct (Rle_dec c hi); [rewrite (Rmin_left c hi) by lra|rewrite (Rmin_right c hi) by lra]];
      unfold Rabs; repeat match goal with |- context [Rcase_abs ?a] => destruct (Rcase_abs a) end; lra.
  - split; [|split].
    + split; intros z E; [injection E as <-|discriminate]. apply Rmax_r.
    + intros [A B]. specialize (A _ eq_refl). rewrite Rmax_left; lra.
    + intros d [A B]. specialize (A _ eq_refl). unfold Rmax, Rabs.
      repeat match goal with |- context [Rle_dec ?a ?b] => destruct (Rle_dec a b) | |- context [Rcase_abs ?a] => destruct (Rcase_abs a) end; lra.
  - split; [|split].
    + split; intros z E; [discriminate|injection E as <-]. apply Rmin_r.
    + intros [A B]. specialize (B _ eq_refl). rewrite Rmin_left; lra.
    + intros d [A B]. specialize (B _ eq_refl). unfold Rmin, Rabs.
      repeat match goal with |- context [Rle_dec ?a ?b] => destruct (Rle_dec a b) | |- context [Rcase_abs ?a] => destruct (Rcase_abs a) end; lra.
  - split; [split; intros z E; discriminate|]. split; [reflexivity|]. intros d _. rewrite Rminus_diag_eq, Rabs_R0 by reflexivity. apply Rabs_pos.
Qed.
Lemma locally_same (f g : R -> R) t l : (exists r, 0 < r /\ forall s, Rabs (s - t) < r -> f s = g s) -> derivable_pt_lim g t l -> derivable_pt_lim f t l.
Proof.
  intros [r [Hr E]] D eps He. destruct (D eps He) as [d Hd]. assert (P : 0 < Rmin d r) by (apply Rmin_case; [apply cond_pos|exact Hr]).
  exists (mkposreal _ P). intros h Hn Hh. cbn [pos] in Hh. assert (M1 := Rmin_l d r). assert (M2 := Rmin_r d r).
  rewrite (E (t + h)), (E t); [apply Hd; [exact Hn|lra]| |]; [rewrite Rminus_diag_eq, Rabs_R0 by reflexivity; exact Hr|].
  replace (t + h - t) with h by ring. lra.
Qed.
Lemma near_value (c : R -> R) t d e : derivable_pt_lim c t d -> 0 < e -> exists r, 0 < r /\ forall s, Rabs (s - t) < r -> Rabs (c s - c t) < e.
Proof.
  intros D He. assert (C : continuity_pt c t) by (apply derivable_continuous_pt; exists d; exact D).
  destruct (C e He) as [a [Ha H]]. exists a. split; [exact Ha|]. intros s Hs.
  destruct (Req_dec t s) as [-> |N]; [rewrite Rminus_diag_eq, Rabs_R0 by reflexivity; exact He|].
  apply (H s). split; [split; [exact I|exact N]|exact Hs].
Qed.
(** Near a cost that is not at a bound, clipping does nothing or is constant. *)
Lemma clip_locally bounds c : proper bounds -> inside bounds c \/ outside bounds c ->
  exists e, 0 < e /\ forall z, Rabs (z - c) < e -> clip_cost bounds z = if cost_clipped bounds c then clip_cost bounds c else z.
Proof.
  intros P H. destruct (cost_clipped bounds c) eqn:K.
  - apply clipped_outside in K. destruct K as [[lo [E L]]|[hi [E L]]].
    + exists (lo - c). split; [lra|]. intros z Hz. apply Rabs_def2 in Hz. unfold clip_cost. rewrite E. rewrite !Rmax_right by lra. reflexivity.
    + exists (c - hi). split; [lra|]. intros z Hz. apply Rabs_def2 in Hz. unfold clip_cost. rewrite E.
      assert (M : forall w, hi < w -> Rmin (match fst bounds with Some lo => Rmax w lo | None => w end) hi = hi).
      { intros w Hw. destruct (fst bounds) as [lo|]; [|apply Rmin_right; lra]. assert (B := Rmax_l w lo). apply Rmin_right. lra. }
      rewrite !M by lra. reflexivity.
  - assert (I : inside bounds c) by (destruct H as [H|H]; [exact H|]; apply clipped_outside in H; congruence). destruct I as [A B].
    destruct bounds as [[lo|] [hi|]]; cbn [fst snd] in *.
    + specialize (A _ eq_refl). specialize (B _ eq_refl). exists (Rmin (c - lo) (hi - c)). split; [apply Rmin_case; lra|]. intros z Hz.
      assert (M1 := Rmin_l (c - lo) (hi - c)). assert (M2 := Rmin_r (c - lo) (hi - c)). apply Rabs_def2 in Hz. unfold clip_cost. cbn. rewrite Rmax_left, Rmin_left; lra.
    + specialize (A _ eq_refl). exists (c - lo). split; [lra|]. intros z Hz. apply Rabs_def2 in Hz. unfold clip_cost. cbn. rewrite Rmax_left; lra.
    + specialize (B _ eq_refl). exists (hi - c). split; [lra|]. intros z Hz. apply Rabs_def2 in Hz. unfold clip_cost. cbn. rewrite Rmin_left; lra.
    + exists 1. split; [lra|]. reflexivity.
Qed.
Lemma costs_derivative S bounds p (eta : R -> nat -> R) e t j : proper bounds -> inside bounds (p j - eta t j) \/ outside bounds (p j - eta t j) ->
  derivable_pt_lim (fun s => eta s j) t (e j) -> (stype S = LogCosts -> 0 < clip_cost bounds (p j - eta t j)) ->
  derivable_pt_lim (fun s => tilde_costs S bounds (fun k => p k - eta s k) j) t (omega_jacobian S bounds (fun k => p k - eta t k) (Demand e) j).
Proof.
  intros P IO D L. set (c := fun s => p j - eta s j). assert (Dc : derivable_pt_lim c t (- e j)).
  { unfold c. replace (- e j) with (0 - e j) by ring. apply (derivable_pt_lim_minus (fun _ => p j) (fun s => eta s j)); [apply derivable_pt_lim_const|exact D]. }
  destruct (clip_locally bounds (c t) P IO) as [r [Hr Hc]]. destruct (near_value c t _ r Dc Hr) as [q [Hq Hn]].
  unfold omega_jacobian. change (p j - eta t j) with (c t). destruct (cost_clipped bounds (c t)) eqn:K.
  - apply locally_same with (fun _ => tilde_costs S bounds (fun k => p k - eta t k) j); [|apply derivable_pt_lim_const].
    exists q. split; [exact Hq|]. intros s Hs. unfold tilde_costs. change (p j - eta s j) with (c s). change (p j - eta t j) with (c t).
    rewrite (Hc _ (Hn s Hs)). reflexivity.
  - assert (Ct : clip_cost bounds (c t) = c t) by (rewrite Hc; [reflexivity|rewrite Rminus_diag_eq, Rabs_R0 by reflexivity; exact Hr]).
    unfold omega_by_theta. destruct (stype S) eqn:T.
    + apply locally_same with c; [|exact Dc]. exists q. split; [exact Hq|]. intros s Hs. unfold tilde_costs. rewrite T. change (p j - eta s j) with (c s). apply Hc, Hn, Hs.
    + specialize (L eq_refl). change (p j - eta t j) with (c t) in L. rewrite Ct in L.
      assert (Et : exp (tilde_costs S bounds (fun k => p k - eta t k) j) = c t).
      { unfold tilde_costs. rewrite T. change (p j - eta t j) with (c t). rewrite Ct. apply exp_ln. exact L. }
      rewrite Et. apply locally_same with (fun s => ln (c s)).
      * exists q. split; [exact Hq|]. intros s Hs. unfold tilde_costs. rewrite T. change (p j - eta s j) with (c s). rewrite Hc by (apply Hn, Hs). reflexivity.
      * replace (- e j / c t) with (/ c t * - e j) by (field; lra). apply (derivable_pt_lim_comp c ln); [exact Dc|apply derivable_pt_lim_ln; exact L].
Qed.
Lemma positive_costs S bounds J costs lo : fst bounds = Some lo -> 0 < lo -> (forall hi, snd bounds = Some hi -> lo <= hi) ->
  nonpositive_costs S bounds J costs = false /\ forall j, lo <= clip_cost bounds (costs j).
Proof.
  intros E L Hh. assert (A : forall j, lo <= clip_cost bounds (costs j)).
  { intros j. unfold clip_cost. rewrite E. assert (M := Rmax_r (costs j) lo). destruct (snd bounds) as [hi|]; [|exact M]. specialize (Hh hi eq_refl). apply Rmin_case; lra. }
  split; [|exact A]. unfold nonpositive_costs. destruct (stype S); [reflexivity|]. induction (seq 0 J) as [|j l IH]; [reflexivity|]. cbn [existsb].
  specialize (A j). destruct (Rle_dec (clip_cost bounds (costs j)) 0); [lra|exact IH].
Qed.

(* ---------- Shares ---------- *)

(** How far one evaluation of the contraction moves a mean utility, as a multiple of differences between logarithms. *)
Lemma contraction_moves m a safe bounds shares x j : contraction m a safe bounds shares x j - x j
  = (ln (shares j) - ln (fst (clip_share bounds (market_shares m a safe x j)))) * (if Nat.eqb (mH m) 0 then 1 else 1 - rho m j).
Proof. unfold contraction. destruct (Nat.eqb (mH m) 0); ring. Qed.
Lemma dampened m j : valid_market m -> (j < mJ m)%nat -> 0 < (if Nat.eqb (mH m) 0 then 1 else 1 - rho m j).
Proof.
  intros V Hj. destruct (Nat.eqb_spec (mH m) 0) as [E|E]; [lra|]. assert (rho m j < 1) by (apply (vm_rho _ V E), (vm_gid _ V E); assumption). lra.
Qed.
Lemma clip_bounds bounds s : proper bounds -> within bounds (fst (clip_share bounds s)).
Proof.
  intros P. unfold within, clip_share. destruct bounds as [[lo|] [hi|]]; cbn [fst snd].
  - specialize (P lo hi eq_refl). destruct (Rlt_dec s lo); destruct (Rlt_dec hi _); cbn; split; intros z E; injection E as <-; lra.
  - destruct (Rlt_dec s lo); cbn; split; intros z E; try discriminate; injection E as <-; lra.
  - destruct (Rlt_dec hi s); cbn; split; intros z E; try discriminate; injection E as <-; lra.
  - split; intros z E; discriminate.
Qed.
Lemma clip_positive bounds s : within bounds s \/ True -> 0 < s -> (forall hi, snd bounds = Some hi -> 0 < hi) -> 0 < fst (clip_share bounds s).
Proof.
  intros _ P H. unfold clip_share. destruct bounds as [[lo|] [hi|]]; cbn [fst snd] in *; try specialize (H hi eq_refl);
  repeat match goal with |- context [Rlt_dec ?a ?b] => destruct (Rlt_dec a b) end; cbn; lra.
Qed.
Lemma ln_mono x y : 0 < x -> x <= y -> ln x <= ln y.
Proof. intros P [L| ->]; [left; apply ln_increasing; assumption|lra]. Qed.
Lemma below_moves m a safe bounds shares lo x j : valid_market m -> proper bounds -> (j < mJ m)%nat -> fst bounds = Some lo -> 0 < shares j < lo ->
  contraction m a safe bounds shares x j <= x j - ln (lo / shares j) * (if Nat.eqb (mH m) 0 then 1 else 1 - rho m j).
Proof.
  intros V P Hj E S. assert (M := contraction_moves m a safe bounds shares x j). assert (D := dampened m j V Hj). set (d := if Nat.eqb _ _ then _ else _) in *.
  assert (W := proj1 (clip_bounds bounds (market_shares m a safe x j) P) lo E). set (s := fst (clip_share bounds _)) in *.
  assert (L := ln_mono lo s ltac:(lra) W). unfold Rdiv. rewrite ln_mult, ln_Rinv by (try apply Rinv_0_lt_compat; lra). nra.
Qed.
Lemma above_moves m a safe bounds shares hi x j : valid_market m -> valid_agents a -> proper bounds -> (j < mJ m)%nat -> snd bounds = Some hi -> 0 < hi < shares j ->
  x j + ln (shares j / hi) * (if Nat.eqb (mH m) 0 then 1 else 1 - rho m j) <= contraction m a safe bounds shares x j.
Proof.
  intros V A P Hj E S. assert (M := contraction_moves m a safe bounds shares x j). assert (D := dampened m j V Hj). set (d := if Nat.eqb _ _ then _ else _) in *.
  assert (W := proj2 (clip_bounds bounds (market_shares m a safe x j) P) hi E).
  assert (Q : 0 < fst (clip_share bounds (market_shares m a safe x j))) by (apply clip_positive; [right; exact I|apply market_shares_pos; assumption|intros h Eh; rewrite E in Eh; injection Eh as <-; lra]).
  set (s := fst (clip_share bounds _)) in *. assert (L := ln_mono s hi Q W). unfold Rdiv. rewrite ln_mult, ln_Rinv by (try apply Rinv_0_lt_compat; lra). nra.
Qed.
Lemma drift (f : (nat -> R) -> nat -> R) (x : nat -> R) (b : R) (j n : nat) : (forall y, f y j <= y j - b) -> Nat.iter n f x j <= x j - INR n * b.
Proof. intros H. induction n as [|n IH]; [cbn; lra|]. change (Nat.iter (S n) f x) with (f (Nat.iter n f x)). specialize (H (Nat.iter n f x)). rewrite S_INR. lra. Qed.

(** Runs in which no evaluation changes values by little. *)
Section Never.
  Variables (f : contraction_fn) (t : tolerance) (J : nat).
  Hypothesis Hf : forall log it e x, length x = J -> snd (f log it e x) = None /\ length (fst (f log it e x)) = J /\
    (vfin (fst (f log it e x)) = true -> termination_check t (fst (f log it e x)) (vsub (fst (f log it e x)) x) None = false).
  Lemma vzip_length op x y : length x = J -> length y = J -> length (vzip op x y) = J.
  Proof. revert x y. generalize J. intros n x. revert n. induction x as [|a x IH]; intros [|n] [|b y] A B; cbn in *; try discriminate; [reflexivity|]. f_equal. apply IH; congruence. Qed.
  Lemma simple_never fuel M x ev s o : length x = J -> simple_loop fuel f t M x ev s = Some o -> o_converged o = false.
  Proof.
    revert x ev s. induction fuel as [|fuel IH]; intros x ev s L; cbn [simple_loop]; [discriminate|]. unfold evaluate.
    destruct (Hf (s_log s) (s_iterations s) (S (s_evaluations s)) x L) as [N [L' T]]. destruct (f _ _ _ x) as [y w]. cbn [fst snd] in *. subst w. unfold all_finite. rewrite andb_true_r.
    destruct (vfin y) eqn:F; cbn [negb]; [|intros E; injection E as <-; reflexivity]. rewrite (T eq_refl), orb_false_r.
    destruct (Nat.leb_spec M (S ev)) as [B|B]; [|apply IH; exact L']. intros E. injection E as <-. cbn [o_converged]. apply Nat.ltb_ge. exact B.
  Qed.
  Lemma squarem_never fuel M scheme factor b x ev s steps q : length x = J -> squarem_loop fuel f t M scheme factor b x ev s steps = Some q -> o_converged (q_out q) = false.
  Proof.
    revert b x ev s steps. induction fuel as [|fuel IH]; intros b x ev s steps L; cbn [squarem_loop]; [discriminate|]. unfold evaluate. cbn [s_log s_iterations s_evaluations].
    destruct (Hf (s_log s) (s_iterations s) (S (s_evaluations s)) x L) as [N [L1 T1]]. destruct (f _ _ _ x) as [x1 w1]. cbn [fst snd] in *. subst w1. unfold all_finite. rewrite !andb_true_r.
    destruct (vfin x1) eqn:F1; cbn [negb]; [|intros E; injection E as <-; reflexivity]. rewrite (T1 eq_refl), orb_false_r.
    destruct (Nat.leb_spec M (S ev)) as [B1|B1]; [intros E; injection E as <-; cbn [o_converged q_out]; apply Nat.ltb_ge; assumption|].
    match goal with |- context [f ?l ?i ?e x1] => destruct (Hf l i e x1 L1) as [N2 [L2 T2]]; destruct (f l i e x1) as [x2 w2] end. cbn [fst snd] in *. subst w2.
    rewrite !andb_true_r. destruct (vfin x2) eqn:F2; cbn [negb]; [|intros E; injection E as <-; reflexivity]. rewrite (T2 eq_refl), orb_false_r.
    destruct (Nat.leb_spec M (S (S ev))) as [B2|B2]; [intros E; injection E as <-; cbn [o_converged q_out]; apply Nat.ltb_ge; assumption|].
    set (alpha := bound_alpha b _). set (x3 := accelerate alpha _ _ _).
    assert (L3 : length x3 = J).
    { unfold x3, accelerate. apply vzip_length; [apply vzip_length; [exact L|]|]; rewrite map_length; unfold vsub; repeat apply vzip_length; assumption. }
    match goal with |- context [f ?l ?i ?e x3] => destruct (Hf l i e x3 L3) as [N4 [L4 T4]]; destruct (f l i e x3) as [x4 w4] end. cbn [fst snd] in *. subst w4.
    rewrite !andb_true_r. destruct (vfin x4) eqn:F4; cbn [negb]; [|intros E; injection E as <-; reflexivity]. rewrite (T4 eq_refl), orb_false_r.
    destruct (Nat.leb_spec M (S (S (S ev)))) as [B3|B3]; [intros E; injection E as <-; cbn [o_converged q_out]; apply Nat.ltb_ge; assumption|].
    apply IH. exact L4.
  Qed.
End Never.
Lemma flat_column J x : length x = J -> vfin x = true -> x = flat J (ConvModel.column x).
Proof.
  intros L F. unfold flat, ConvModel.column. apply nth_ext with NaN NaN; [rewrite map_length, seq_length; exact L|]. intros n Hn.
  rewrite (nth_indep (map (fun j => Num (fnum (nth j x NaN))) (seq 0 J)) NaN (Num (fnum (nth 0 x NaN)))) by (rewrite map_length, seq_length; lia).
  rewrite (map_nth (fun j => Num (fnum (nth j x NaN)))), seq_nth by lia. rewrite Nat.add_0_l. unfold vfin in F. rewrite forallb_forall in F. specialize (F (nth n x NaN) (nth_In _ _ Hn)). destruct (nth n x NaN); cbn in *; try discriminate. reflexivity.
Qed.
Lemma never_converges m a safe bounds shares atol budget start o j : 0 < atol -> (j < mJ m)%nat ->
  (forall x, atol <= Rabs (contraction m a safe bounds shares x j - x j)) ->
  routine (delta_function m a safe bounds shares) (mk_tol (Num atol) (Num 0) infinity_norm) budget (flat (mJ m) start) o -> o_converged o = false.
Proof.
  intros A Hj H R. set (J := mJ m) in *.
  assert (FL : forall x, length (flat J x) = J) by (intros x; unfold flat; rewrite map_length, seq_length; reflexivity).
  assert (Hf : forall log it e x, length x = J -> snd (delta_function m a safe bounds shares log it e x) = None /\ length (fst (delta_function m a safe bounds shares log it e x)) = J /\
    (vfin (fst (delta_function m a safe bounds shares log it e x)) = true -> termination_check (mk_tol (Num atol) (Num 0) infinity_norm)
       (fst (delta_function m a safe bounds shares log it e x)) (vsub (fst (delta_function m a safe bounds shares log it e x)) x) None = false)).
  { intros log it e x L. unfold delta_function. fold J. destruct (vfin x) eqn:F; cbn [fst snd].
    - split; [reflexivity|]. split; [apply FL|]. intros _. set (y := contraction m a safe bounds shares (ConvModel.column x)). rewrite (flat_column J x L F).
      match goal with |- ?b = false => destruct b eqn:E; [|reflexivity] end. exfalso.
      assert (K := check_means J atol _ _ A E j Hj). specialize (H (ConvModel.column x)). fold y in H. lra.
    - split; [reflexivity|]. split; [apply repeat_length|]. intros B. exfalso. clear - B Hj. destruct J; [lia|]. discriminate. }
  destruct R as [R|[scheme [factor [lim [q [R ->]]]]]].
  - exact (simple_never _ _ J Hf _ _ _ _ _ o (FL start) R).
  - exact (squarem_never _ _ J Hf _ _ _ _ _ _ _ _ _ q (FL start) R).
Qed.
Lemma ln_eq x y : 0 < x -> 0 < y -> ln x = ln y -> x = y.
Proof. intros X Y H. apply ln_inv; assumption. Qed.
Lemma fixed_iff_clip m a safe bounds shares x j : valid_market m -> valid_agents a -> proper bounds -> (forall hi, snd bounds = Some hi -> 0 < hi) -> (j < mJ m)%nat -> 0 < shares j ->
  (contraction m a safe bounds shares x j = x j <-> fst (clip_share bounds (market_shares m a safe x j)) = shares j).
Proof.
  intros V A P U Hj S. assert (M := contraction_moves m a safe bounds shares x j). assert (D := dampened m j V Hj). set (d := if Nat.eqb _ _ then _ else _) in *.
  assert (Q : 0 < fst (clip_share bounds (market_shares m a safe x j))) by (apply clip_positive; [right; exact I|apply market_shares_pos; assumption|exact U]).
  set (s := fst (clip_share bounds _)) in *. split.
  - intros E. symmetry. apply ln_eq; try assumption. rewrite E in M. assert (Z : (ln (shares j) - ln s) * d = 0) by lra. apply Rmult_integral in Z. destruct Z; lra.
  - intros E. rewrite E in M. assert (Z : (ln (shares j) - ln (shares j)) * d = 0) by ring. lra.
Qed.
