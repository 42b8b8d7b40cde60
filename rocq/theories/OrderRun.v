(** Iteration routines on data in another order: the same steps, counters and flags. *)
From Coq Require Import Reals Lra Lia List Bool Arith Permutation FunctionalExtensionality.
From Verif Require Import Base FltModel IterModel DemandModel SupplyModel ConvModel EquilModel OrderSpec OrderProofs.
Import ListNotations.
Local Open Scope R_scope.

(* ---------- Vectors ---------- *)
Lemma reorder_length p x : length (reorder_vector p x) = length x.
Proof. unfold reorder_vector. rewrite map_length, seq_length. reflexivity. Qed.

Lemma reorder_nth p x j : (j < length x)%nat -> nth j (reorder_vector p x) NaN = nth (p j) x NaN.
Proof.
  intros Hj. unfold reorder_vector.
  rewrite (nth_indep _ NaN (nth (p 0%nat) x NaN)) by (rewrite map_length, seq_length; exact Hj).
  rewrite (map_nth (fun j => nth (p j) x NaN) (seq 0 (length x)) 0%nat). rewrite seq_nth by exact Hj. reflexivity.
Qed.

Lemma vector_ext (x y : fvec) : length x = length y -> (forall j, (j < length x)%nat -> nth j x NaN = nth j y NaN) -> x = y.
Proof. intros Hl H. apply (nth_ext x y NaN NaN Hl). exact H. Qed.

Lemma zip_length op x y : length x = length y -> length (vzip op x y) = length x.
Proof.
  revert y. induction x as [|a x IH]; intros [|b y] H; cbn in *; try reflexivity; try discriminate.
  rewrite IH; [reflexivity|lia].
Qed.
Lemma zip_nth op x y j : length x = length y -> (j < length x)%nat ->
  nth j (vzip op x y) NaN = op (nth j x NaN) (nth j y NaN).
Proof.
  revert y j. induction x as [|a x IH]; intros [|b y] [|j] H Hj; cbn in *; try lia; [reflexivity|].
  apply IH; lia.
Qed.

Lemma reorder_permutes p x : renumbers (length x) p -> Permutation (reorder_vector p x) x.
Proof.
  intros Hp. unfold reorder_vector. rewrite <- (map_map p (fun j => nth j x NaN)).
  apply Permutation_trans with (map (fun j => nth j x NaN) (seq 0 (length x))).
  - apply Permutation_map, renumbers_perm, Hp.
  - rewrite (vector_ext (map (fun j => nth j x NaN) (seq 0 (length x))) x); [apply Permutation_refl| |].
    + rewrite map_length, seq_length. reflexivity.
    + intros j Hj. rewrite map_length, seq_length in Hj.
      rewrite (nth_indep _ NaN (nth 0 x NaN)) by (rewrite map_length, seq_length; exact Hj).
      rewrite (map_nth (fun j => nth j x NaN)). rewrite seq_nth by exact Hj. reflexivity.
Qed.

Lemma reorder_zip p op x y : length x = length y -> renumbers (length x) p ->
  vzip op (reorder_vector p x) (reorder_vector p y) = reorder_vector p (vzip op x y).
Proof.
  intros Hl Hp. apply vector_ext.
  - rewrite zip_length by (rewrite !reorder_length; exact Hl). rewrite !reorder_length, zip_length by exact Hl. reflexivity.
  - intros j Hj. rewrite zip_length in Hj by (rewrite !reorder_length; exact Hl). rewrite reorder_length in Hj.
    rewrite zip_nth by (rewrite ?reorder_length; lia). rewrite !reorder_nth by (rewrite ?zip_length by exact Hl; lia).
    rewrite zip_nth; [reflexivity|exact Hl|]. apply (proj1 Hp). exact Hj.
Qed.

Lemma reorder_map p f x : renumbers (length x) p -> map f (reorder_vector p x) = reorder_vector p (map f x).
Proof.
  intros Hp. apply vector_ext; [rewrite map_length, !reorder_length, map_length; reflexivity|].
  intros j Hj. rewrite map_length, reorder_length in Hj. rewrite reorder_nth by (rewrite map_length; exact Hj).
  rewrite (nth_indep _ NaN (f NaN)) by (rewrite map_length, reorder_length; exact Hj). rewrite map_nth.
  rewrite reorder_nth by exact Hj.
  rewrite (nth_indep (map f x) NaN (f NaN)) by (rewrite map_length; apply (proj1 Hp); exact Hj). rewrite map_nth. reflexivity.
Qed.

Lemma forallb_perm {A} (f : A -> bool) l l' : Permutation l l' -> forallb f l = forallb f l'.
Proof.
  induction 1 as [|a l l' H IH|a b l|l1 l2 l3 H1 IH1 H2 IH2]; cbn.
  - reflexivity.
  - rewrite IH. reflexivity.
  - destruct (f a), (f b); reflexivity.
  - rewrite IH1. exact IH2.
Qed.
Lemma reorder_fin p x : renumbers (length x) p -> vfin (reorder_vector p x) = vfin x.
Proof. intros Hp. apply forallb_perm, reorder_permutes, Hp. Qed.

Lemma fadd_swap a b c : fadd a (fadd b c) = fadd b (fadd a c).
Proof. destruct a, b, c; cbn; try reflexivity. f_equal. ring. Qed.
Lemma fsum_perm l l' : Permutation l l' -> fold_right fadd (Num 0) l = fold_right fadd (Num 0) l'.
Proof.
  induction 1 as [|a l l' H IH|a b l|l1 l2 l3 H1 IH1 H2 IH2]; cbn; [reflexivity| | |].
  - rewrite IH. reflexivity.
  - apply fadd_swap.
  - rewrite IH1. exact IH2.
Qed.
Lemma reorder_dot p x y : length x = length y -> renumbers (length x) p ->
  vdot (reorder_vector p x) (reorder_vector p y) = vdot x y.
Proof.
  intros Hl Hp. unfold vdot. rewrite reorder_zip by assumption. apply fsum_perm, reorder_permutes.
  rewrite zip_length by exact Hl. exact Hp.
Qed.

Lemma fmax_swap a b c : fmax a (fmax b c) = fmax b (fmax a c).
Proof.
  destruct a as [a| | |], b as [b| | |], c as [c| | |]; unfold fmax, fnan, fltb, rltb; cbn; try reflexivity;
    repeat (destruct (Rlt_dec _ _); cbn); try reflexivity; try (f_equal; lra).
Qed.
Lemma infinity_order_free J : order_free J infinity_norm.
Proof.
  intros p x Hx Hp. unfold infinity_norm. subst J. assert (H := reorder_permutes p x Hp). revert H.
  generalize (reorder_vector p x) as y. intros y H. clear Hp.
  induction H as [|a l l' H IH|a b l|l1 l2 l3 H1 IH1 H2 IH2]; cbn [fold_right]; [reflexivity| | |].
  - rewrite IH. reflexivity.
  - exact (fmax_swap _ _ _).
  - rewrite IH1. exact IH2.
Qed.

Lemma reorder_flat p J x : renumbers J p -> reorder_vector p (flat J x) = flat J (fun j => x (p j)).
Proof.
  intros Hp. assert (Hl : length (flat J x) = J) by (unfold flat; rewrite map_length, seq_length; reflexivity).
  unfold reorder_vector. rewrite Hl. unfold flat. apply map_ext_in. intros j Hj. apply in_seq in Hj.
  rewrite (nth_indep _ NaN (Num (x 0%nat))) by (rewrite map_length, seq_length; apply (proj1 Hp); lia).
  rewrite (map_nth (fun j => Num (x j)) (seq 0 J) 0%nat). rewrite seq_nth by (apply (proj1 Hp); lia). reflexivity.
Qed.
Lemma reorder_repeat p J v : renumbers J p -> reorder_vector p (repeat v J) = repeat v J.
Proof.
  intros Hp. apply vector_ext; [rewrite reorder_length; reflexivity|].
  intros j Hj. rewrite reorder_length, repeat_length in Hj. rewrite reorder_nth by (rewrite repeat_length; exact Hj).
  assert (H : forall k, (k < J)%nat -> nth k (repeat v J) NaN = v).
  { intros k Hk. rewrite (nth_indep _ NaN v) by (rewrite repeat_length; exact Hk). apply nth_repeat. }
  rewrite !H by (try apply (proj1 Hp); exact Hj). reflexivity.
Qed.

(* ---------- Routines ---------- *)
Section Routine.
  Variables (J : nat) (p : nat -> nat) (f f' : contraction_fn) (t : tolerance).
  Hypothesis Hp : renumbers J p.
  Hypothesis Hn : order_free J (t_norm t).
  (** What is iterated keeps no memory and gives vectors of the same length. *)
  Hypothesis Hl : forall log i e x, length x = J -> length (fst (f log i e x)) = J /\
    match snd (f log i e x) with Some w => length w = J | None => True end.
  Hypothesis Hf : forall log log' i e x, length x = J ->
    f' log' i e (reorder_vector p x) = (reorder_vector p (fst (f log i e x)), option_map (reorder_vector p) (snd (f log i e x))).

  Definition same_counts (s s' : st) : Prop := s_iterations s' = s_iterations s /\ s_evaluations s' = s_evaluations s.
  Definition same_outcome (o o' : outcome) : Prop :=
    o_x o' = reorder_vector p (o_x o) /\ o_converged o' = o_converged o /\ same_counts (o_st o) (o_st o').

  Lemma finite_reorder x w : length x = J -> match w with Some w => length w = J | None => True end ->
    all_finite (reorder_vector p x) (option_map (reorder_vector p) w) = all_finite x w.
  Proof.
    intros Hx Hw. unfold all_finite. rewrite reorder_fin by (rewrite Hx; exact Hp). f_equal.
    destruct w as [w|]; cbn [option_map]; [|reflexivity]. apply reorder_fin. rewrite Hw. exact Hp.
  Qed.
  Lemma weight_reorder x w : length x = J -> match w with Some w => length w = J | None => True end ->
    weight (reorder_vector p x) (option_map (reorder_vector p) w) = reorder_vector p (weight x w) /\ length (weight x w) = J.
  Proof.
    intros Hx Hw. unfold weight. destruct w as [w|]; cbn [option_map]; [|auto].
    rewrite reorder_zip by (rewrite ?Hw; first [congruence|exact Hp]). split; [reflexivity|]. rewrite zip_length; congruence.
  Qed.
  Lemma check_reorder x r w : length x = J -> length r = J -> match w with Some w => length w = J | None => True end ->
    termination_check t (reorder_vector p x) (reorder_vector p r) (option_map (reorder_vector p) w) = termination_check t x r w.
  Proof.
    intros Hx Hr Hw. unfold termination_check.
    destruct (weight_reorder x w Hx Hw) as [E1 L1]. destruct (weight_reorder r w Hr Hw) as [E2 L2].
    rewrite E1, E2, !Hn by assumption. reflexivity.
  Qed.
  Lemma sub_reorder x y : length x = J -> length y = J ->
    vsub (reorder_vector p x) (reorder_vector p y) = reorder_vector p (vsub x y) /\ length (vsub x y) = J.
  Proof.
    intros Hx Hy. unfold vsub. rewrite reorder_zip by (rewrite ?Hx; first [congruence|exact Hp]). split; [reflexivity|].
    rewrite zip_length; congruence.
  Qed.

  Lemma evaluate_reorder s s' x : length x = J -> same_counts s s' ->
    exists v w s1 s1', evaluate f s x = (v, w, s1) /\
      evaluate f' s' (reorder_vector p x) = (reorder_vector p v, option_map (reorder_vector p) w, s1') /\
      length v = J /\ match w with Some w => length w = J | None => True end /\ same_counts s1 s1'.
  Proof.
    intros Hx [Hi He]. destruct (Hl (s_log s) (s_iterations s) (S (s_evaluations s)) x Hx) as [L1 L2].
    assert (E := Hf (s_log s) (s_log s') (s_iterations s) (S (s_evaluations s)) x Hx).
    unfold evaluate. rewrite Hi, He, E. cbn [fst snd]. eexists _, _, _, _. split; [reflexivity|]. split; [reflexivity|].
    split; [exact L1|]. split; [exact L2|]. split; cbn; [reflexivity|reflexivity].
  Qed.
  Lemma callback_counts s s' : same_counts s s' -> same_counts (callback s) (callback s').
  Proof. intros [A B]. split; cbn; congruence. Qed.

  Lemma simple_reorder max fuel x ev s s' : length x = J -> same_counts s s' ->
    match simple_loop fuel f t max x ev s, simple_loop fuel f' t max (reorder_vector p x) ev s' with
    | Some o, Some o' => same_outcome o o'
    | None, None => True
    | _, _ => False
    end.
  Proof.
    revert x ev s s'. induction fuel as [|fuel IH]; intros x ev s s' Hx Hs; [exact I|].
    cbn [simple_loop]. destruct (evaluate_reorder s s' x Hx Hs) as [v [w [s1 [s1' [E [E' [Lv [Lw Hs1]]]]]]]].
    rewrite E, E'. rewrite finite_reorder by assumption.
    destruct (sub_reorder v x Lv Hx) as [Es Ls]. rewrite Es. rewrite check_reorder by assumption.
    destruct (all_finite v w); cbn [negb]; [|repeat split; apply Hs1].
    destruct (_ || _)%bool; [|apply IH; [exact Lv|apply callback_counts, Hs1]].
    repeat split; cbn; try apply Hs1. f_equal. apply Hs1.
  Qed.

  Lemma accelerate_reorder alpha x r v : length x = J -> length r = J -> length v = J ->
    accelerate alpha (reorder_vector p x) (reorder_vector p r) (reorder_vector p v) = reorder_vector p (accelerate alpha x r v)
    /\ length (accelerate alpha x r v) = J.
  Proof.
    intros Hx Hr Hv. unfold accelerate.
    assert (L : length (vzip fsub x (map (fmul (fmul (Num 2) alpha)) r)) = J) by (rewrite zip_length; rewrite ?map_length; congruence).
    rewrite !reorder_map by (rewrite ?Hr, ?Hv; exact Hp).
    rewrite (reorder_zip p fsub) by (rewrite ?map_length, ?Hx; first [congruence|exact Hp]).
    rewrite reorder_zip by (rewrite ?map_length, ?L; first [congruence|exact Hp]). split; [reflexivity|].
    rewrite zip_length; rewrite ?map_length; congruence.
  Qed.
  Lemma alpha_reorder scheme r v : length r = J -> length v = J ->
    raw_alpha scheme (reorder_vector p r) (reorder_vector p v) = raw_alpha scheme r v.
  Proof.
    intros Hr Hv. unfold raw_alpha. rewrite !reorder_dot by (rewrite ?Hr, ?Hv; first [congruence|exact Hp]). reflexivity.
  Qed.

  Definition same_sq (o o' : sq_outcome) : Prop := same_outcome (q_out o) (q_out o') /\ q_steps o' = q_steps o.

  Lemma squarem_reorder max scheme factor fuel b x ev s s' steps : length x = J -> same_counts s s' ->
    match squarem_loop fuel f t max scheme factor b x ev s steps,
          squarem_loop fuel f' t max scheme factor b (reorder_vector p x) ev s' steps with
    | Some o, Some o' => same_sq o o'
    | None, None => True
    | _, _ => False
    end.
  Proof.
    revert b x ev s s' steps. induction fuel as [|fuel IH]; intros b x ev s s' steps Hx Hs; [exact I|].
    cbn [squarem_loop].
    destruct (evaluate_reorder s s' x Hx Hs) as [x1 [w1 [s1 [s1' [E1 [E1' [L1 [W1 Hs1]]]]]]]].
    rewrite E1, E1'. rewrite finite_reorder by assumption.
    destruct (sub_reorder x1 x L1 Hx) as [Eg0 Lg0]. rewrite Eg0. rewrite check_reorder by assumption.
    destruct (all_finite x1 w1); cbn [negb]; [|repeat split; apply Hs1].
    destruct (_ || _)%bool; [repeat split; apply Hs1|].
    destruct (evaluate_reorder s1 s1' x1 L1 Hs1) as [x2 [w2 [s2 [s2' [E2 [E2' [L2 [W2 Hs2]]]]]]]].
    rewrite E2, E2'. rewrite finite_reorder by assumption.
    destruct (sub_reorder x2 x1 L2 L1) as [Eg1 Lg1]. rewrite Eg1. rewrite check_reorder by assumption.
    destruct (all_finite x2 w2); cbn [negb]; [|repeat split; apply Hs2].
    destruct (_ || _)%bool; [repeat split; apply Hs2|].
    destruct (sub_reorder (vsub x2 x1) (vsub x1 x) Lg1 Lg0) as [Ev Lv]. rewrite Ev.
    rewrite (alpha_reorder scheme (vsub x1 x) (vsub (vsub x2 x1) (vsub x1 x)) Lg0 Lv).
    set (alpha := bound_alpha b (raw_alpha scheme (vsub x1 x) (vsub (vsub x2 x1) (vsub x1 x)))).
    destruct (accelerate_reorder alpha x (vsub x1 x) (vsub (vsub x2 x1) (vsub x1 x)) Hx Lg0 Lv) as [Ea La]. rewrite Ea.
    destruct (evaluate_reorder s2 s2' _ La Hs2) as [x4 [w4 [s4 [s4' [E4 [E4' [L4 [W4 Hs4]]]]]]]].
    rewrite E4, E4'. rewrite finite_reorder by assumption.
    destruct (sub_reorder x4 _ L4 La) as [E5 L5]. rewrite E5. rewrite check_reorder by assumption.
    destruct (all_finite x4 w4); cbn [negb]; [|repeat split; apply Hs4].
    assert (Hc := callback_counts s4 s4' Hs4).
    destruct (_ || _)%bool; [repeat split; cbn [q_out o_st]; apply Hc|].
    apply IH; [exact L4|exact Hc].
  Qed.
End Routine.

(* ---------- Mean utilities and prices ---------- *)
Lemma column_reorder p x : renumbers (length x) p ->
  ConvModel.column (reorder_vector p x) = fun j => ConvModel.column x (p j).
Proof.
  intros Hp. apply functional_extensionality. intros j. unfold ConvModel.column.
  destruct (Nat.lt_ge_cases j (length x)) as [Hj|Hj]; [rewrite reorder_nth by exact Hj; reflexivity|].
  rewrite (proj2 (proj2 Hp) j Hj). rewrite !nth_overflow; [reflexivity|exact Hj|rewrite reorder_length; exact Hj].
Qed.
Lemma flat_length J x : length (flat J x) = J.
Proof. unfold flat. rewrite map_length, seq_length. reflexivity. Qed.
Lemma flat_eq J x y : (forall j, (j < J)%nat -> x j = y j) -> flat J x = flat J y.
Proof. intros H. apply map_ext_in. intros j Hj. apply in_seq in Hj. rewrite H by lia. reflexivity. Qed.

Section Functions.
  Variables (J : nat) (p : nat -> nat).
  Hypothesis Hp : renumbers J p.

  Lemma delta_function_length m a safe bounds shares log i e x : mJ m = J ->
    length (fst (delta_function m a safe bounds shares log i e x)) = J /\
    match snd (delta_function m a safe bounds shares log i e x) with Some w => length w = J | None => True end.
  Proof.
    intros <-. unfold delta_function. destruct (vfin x); cbn [fst snd]; split; try exact I; [apply flat_length|apply repeat_length].
  Qed.
  Lemma delta_function_reorder m a safe bounds shares log log' i e x : mJ m = J -> length x = J ->
    delta_function (reorder_market p m) (reorder_agents p a) safe bounds (fun j => shares (p j)) log' i e (reorder_vector p x)
    = (reorder_vector p (fst (delta_function m a safe bounds shares log i e x)),
       option_map (reorder_vector p) (snd (delta_function m a safe bounds shares log i e x))).
  Proof.
    intros HJ Hx. unfold delta_function. rewrite reorder_fin by (rewrite Hx; exact Hp).
    change (mJ (reorder_market p m)) with (mJ m). rewrite HJ.
    destruct (vfin x); cbn [fst snd option_map]; f_equal; [|symmetry; apply reorder_repeat; exact Hp].
    rewrite reorder_flat by exact Hp. apply flat_eq. intros j Hj. rewrite column_reorder by (rewrite Hx; exact Hp).
    apply (contraction_reorder J p Hp m a safe bounds shares (ConvModel.column x) j HJ Hj).
  Qed.

  Lemma delta_simple_reorder m a safe bounds shares t max start : mJ m = J -> order_free J (t_norm t) ->
    match simple_iterator (delta_function m a safe bounds shares) t max (flat J start),
          simple_iterator (delta_function (reorder_market p m) (reorder_agents p a) safe bounds (fun j => shares (p j))) t max
            (flat J (fun j => start (p j))) with
    | Some o, Some o' => same_outcome p o o'
    | None, None => True
    | _, _ => False
    end.
  Proof.
    intros HJ Hn. rewrite <- (reorder_flat p J start Hp). unfold simple_iterator.
    apply (simple_reorder J p (delta_function m a safe bounds shares)); try assumption.
    - intros. apply delta_function_length, HJ.
    - intros. apply delta_function_reorder; assumption.
    - apply flat_length.
    - split; reflexivity.
  Qed.
  Lemma delta_squarem_reorder m a safe bounds shares t max scheme factor b start : mJ m = J -> order_free J (t_norm t) ->
    match squarem_iterator (delta_function m a safe bounds shares) t max scheme factor b (flat J start),
          squarem_iterator (delta_function (reorder_market p m) (reorder_agents p a) safe bounds (fun j => shares (p j))) t max
            scheme factor b (flat J (fun j => start (p j))) with
    | Some o, Some o' => same_sq p o o'
    | None, None => True
    | _, _ => False
    end.
  Proof.
    intros HJ Hn. rewrite <- (reorder_flat p J start Hp). unfold squarem_iterator.
    apply (squarem_reorder J p (delta_function m a safe bounds shares)); try assumption.
    - intros. apply delta_function_length, HJ.
    - intros. apply delta_function_reorder; assumption.
    - apply flat_length.
    - split; reflexivity.
  Qed.

  Lemma prices_function_length M O costs log i e x : mJ (fm M) = J ->
    length (fst (prices_function M O costs log i e x)) = J /\
    match snd (prices_function M O costs log i e x) with Some w => length w = J | None => True end.
  Proof.
    intros <-. unfold prices_function. destruct (vfin x); cbn [fst snd]; rewrite ?flat_length, ?repeat_length; split; reflexivity.
  Qed.
  Lemma prices_function_reorder M O costs log log' i e x : mJ (fm M) = J -> length x = J ->
    prices_function (reorder_full p M) (fun j k => O (p j) (p k)) (fun j => costs (p j)) log' i e (reorder_vector p x)
    = (reorder_vector p (fst (prices_function M O costs log i e x)),
       option_map (reorder_vector p) (snd (prices_function M O costs log i e x))).
  Proof.
    intros HJ Hx. unfold prices_function. rewrite reorder_fin by (rewrite Hx; exact Hp).
    change (mJ (fm (reorder_full p M))) with (mJ (fm M)). rewrite HJ.
    destruct (vfin x); cbn [fst snd option_map]; rewrite ?reorder_flat, ?reorder_repeat by exact Hp; [|reflexivity].
    rewrite column_reorder by (rewrite Hx; exact Hp).
    f_equal; [|f_equal]; apply flat_eq; intros j Hj.
    - apply (price_contraction_reorder J p Hp M HJ O costs (ConvModel.column x) j Hj).
    - apply (price_weights_reorder J p Hp M HJ (ConvModel.column x) j Hj).
  Qed.
  Lemma prices_simple_reorder M O costs t max start : mJ (fm M) = J -> order_free J (t_norm t) ->
    match equilibrium_prices M O costs t max start,
          equilibrium_prices (reorder_full p M) (fun j k => O (p j) (p k)) (fun j => costs (p j)) t max
            (option_map (fun x j => x (p j)) start) with
    | Some o, Some o' => same_outcome p o o'
    | None, None => True
    | _, _ => False
    end.
  Proof.
    intros HJ Hn. unfold equilibrium_prices. change (mJ (fm (reorder_full p M))) with (mJ (fm M)). rewrite HJ.
    assert (E : flat J (match option_map (fun x j => x (p j)) start with Some x => x | None => var0 (reorder_full p M) end)
      = reorder_vector p (flat J (match start with Some x => x | None => var0 M end))).
    { rewrite reorder_flat by exact Hp. destruct start; reflexivity. }
    rewrite E. unfold simple_iterator.
    apply (simple_reorder J p (prices_function M O costs)); try assumption.
    - intros. apply prices_function_length, HJ.
    - intros. apply prices_function_reorder; assumption.
    - apply flat_length.
    - split; reflexivity.
  Qed.
End Functions.
