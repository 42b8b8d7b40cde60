(** Lemmas about where SQUAREM evaluates the contraction. *)
From Coq Require Import Reals Lra Lia List Bool Arith.
From Verif Require Import Base FltModel IterModel IterSpec IterProofs.
Import ListNotations.
Local Open Scope R_scope.

(** Arithmetic of vectors of numbers. *)
Fixpoint rzip (op : R -> R -> R) (x y : list R) : list R :=
  match x, y with
  | a :: x', b :: y' => op a b :: rzip op x' y'
  | _, _ => []
  end.

Lemma rzip_length op x y : length y = length x -> length (rzip op x y) = length x.
Proof. revert y; induction x as [|a x IH]; intros [|b y] H; cbn in *; try lia. rewrite IH; lia. Qed.

Lemma rzip_nth op x : forall y i, length y = length x -> (i < length x)%nat ->
  nth i (rzip op x y) 0 = op (nth i x 0) (nth i y 0).
Proof.
  induction x as [|a x IH]; intros [|b y] i H L; cbn in *; try lia.
  destruct i as [|i]; [reflexivity|]. apply IH; lia.
Qed.

Lemma vzip_num op rop x y : (forall a b, op (Num a) (Num b) = Num (rop a b)) ->
  vzip op (map Num x) (map Num y) = map Num (rzip rop x y).
Proof.
  intros H. revert y; induction x as [|a x IH]; intros [|b y]; cbn [map vzip rzip]; [reflexivity..|].
  rewrite H, IH. reflexivity.
Qed.

Lemma vsub_num x y : vsub (map Num x) (map Num y) = map Num (rzip Rminus x y).
Proof. apply vzip_num. intros a b. reflexivity. Qed.

Lemma fold_num l : fold_right fadd (Num 0) (map Num l) = Num (fold_right Rplus 0 l).
Proof. induction l as [|a l IH]; cbn [map fold_right]; [reflexivity|]. rewrite IH. reflexivity. Qed.

Lemma sumn_shift n f : sumn (S n) f = f 0%nat + sumn n (fun i => f (S i)).
Proof. induction n as [|n IH]; [cbn; ring|]. change (sumn (S (S n)) f) with (sumn (S n) f + f (S n)). rewrite IH. cbn [sumn]. ring. Qed.

Lemma fold_sumn l : fold_right Rplus 0 l = sumn (length l) (fun i => nth i l 0).
Proof.
  induction l as [|a l IH]; cbn [fold_right length]; [reflexivity|].
  rewrite sumn_shift, IH. reflexivity.
Qed.

Lemma vdot_num x y : length y = length x ->
  vdot (map Num x) (map Num y) = Num (sumn (length x) (fun i => nth i x 0 * nth i y 0)).
Proof.
  intros H. unfold vdot. rewrite (vzip_num fmul Rmult) by reflexivity. rewrite fold_num. f_equal.
  rewrite fold_sumn, rzip_length by assumption. apply sumn_ext. intros i Hi.
  apply rzip_nth; assumption.
Qed.

Lemma fmin_num a b : fmin (Num a) (Num b) = Num (Rmin a b).
Proof.
  unfold fmin; cbn [fnan orb fltb]. unfold rltb, Rmin.
  destruct (Rlt_dec b a), (Rle_dec a b); try reflexivity; exfalso; lra.
Qed.

Lemma fmax_num a b : fmax (Num a) (Num b) = Num (Rmax a b).
Proof.
  unfold fmax; cbn [fnan orb fltb]. unfold rltb, Rmax.
  destruct (Rlt_dec a b) as [L|L], (Rle_dec a b) as [G|G]; try reflexivity.
  - exfalso; lra.
  - f_equal. lra.
Qed.

Lemma bound_num lo hi raw :
  bound_alpha (mk_bounds (Num lo) (Num hi)) (Num raw) = Num (- Rmax lo (Rmin hi (- raw))).
Proof. unfold bound_alpha; cbn [b_min b_max fneg]. rewrite fmin_num, fmax_num. reflexivity. Qed.

Lemma raw_num scheme rr rv vv raw :
  scheme_step scheme rr rv vv raw -> 0 <= rr -> 0 <= vv -> forall r v,
  vdot r r = Num rr -> vdot r v = Num rv -> vdot v v = Num vv -> raw_alpha scheme r v = Num raw.
Proof.
  intros H P Q r v E1 E2 E3. unfold raw_alpha.
  destruct H as [[-> [N ->]]|[[-> [N ->]]|[-> [N ->]]]]; rewrite ?E1, ?E2, ?E3; cbn [fdiv];
    destruct (Req_EM_T _ 0); try contradiction; try reflexivity.
  cbn [fsqrt]. destruct (Rlt_dec (rr / vv) 0) as [L|L]; [|reflexivity].
  exfalso. assert (0 <= rr / vv); [|lra].
  apply Rmult_le_pos; [assumption|]. left. apply Rinv_0_lt_compat. lra.
Qed.

Lemma accelerate_num t x r v :
  accelerate (Num t) (map Num x) (map Num r) (map Num v)
  = map Num (rzip Rplus (rzip Rminus x (map (Rmult (2 * t)) r)) (map (Rmult (t * t)) v)).
Proof.
  unfold accelerate. cbn [fmul].
  assert (H : forall k l, map (fmul (Num k)) (map Num l) = map Num (map (Rmult k) l)).
  { intros k l. rewrite !map_map. apply map_ext. reflexivity. }
  rewrite !H. rewrite (vzip_num fsub Rminus) by reflexivity.
  rewrite (vzip_num fadd Rplus) by reflexivity. reflexivity.
Qed.

Lemma nth_scaled k l i : nth i (map (Rmult k) l) 0 = k * nth i l 0.
Proof.
  replace 0 with (k * 0) at 1 by ring. rewrite map_nth. reflexivity.
Qed.

Section Cycle.
Variables (a b c : list R).
Hypothesis (Hb : length b = length a) (Hc : length c = length a).

Notation r := (rzip Rminus b a).
Notation v := (rzip Rminus (rzip Rminus c b) r).

Lemma r_length : length r = length a.
Proof using Hb. clear c Hc. rewrite rzip_length; lia. Qed.
Lemma v_length : length v = length a.
Proof using Hb Hc. rewrite rzip_length; rewrite !rzip_length; lia. Qed.
Lemma r_nth i : (i < length a)%nat -> nth i r 0 = first_difference a b i.
Proof using Hb. clear c Hc. intros H. rewrite rzip_nth by lia. reflexivity. Qed.
Lemma v_nth i : (i < length a)%nat -> nth i v 0 = second_difference a b c i.
Proof using Hb Hc.
  intros H. rewrite rzip_nth by (rewrite !rzip_length; lia). rewrite !rzip_nth by lia.
  unfold second_difference. ring.
Qed.

Lemma step_num scheme lo hi t :
  bound_alpha (mk_bounds (Num lo) (Num hi)) (raw_alpha scheme (map Num r) (map Num v)) = Num t ->
  bounded_step scheme lo hi a b c t.
Proof using Hb Hc.
  intros E raw n H. cbv zeta in H.
  rewrite (raw_num scheme _ _ _ raw H) in E.
  - rewrite bound_num in E. injection E as <-. reflexivity.
  - apply sumn_nonneg. intros i _. apply pow2_ge_0.
  - apply sumn_nonneg. intros i _. apply pow2_ge_0.
  - rewrite vdot_num, r_length by reflexivity. f_equal. apply sumn_ext. intros i Hi.
    rewrite r_nth by assumption. ring.
  - rewrite vdot_num, r_length by (rewrite v_length, r_length; reflexivity). f_equal. apply sumn_ext. intros i Hi.
    rewrite r_nth, v_nth by assumption. reflexivity.
  - rewrite vdot_num, v_length by reflexivity. f_equal. apply sumn_ext. intros i Hi.
    rewrite v_nth by assumption. ring.
Qed.

Lemma point_num t :
  exists d, accelerate (Num t) (map Num a) (map Num r) (map Num v) = map Num d /\
    extrapolated t a b c d.
Proof using Hb Hc.
  eexists. split; [apply accelerate_num|].
  assert (L1 : length (map (Rmult (2 * t)) r) = length a) by (rewrite map_length; apply r_length).
  assert (L2 : length (map (Rmult (t * t)) v) = length a) by (rewrite map_length; apply v_length).
  assert (L3 : length (rzip Rminus a (map (Rmult (2 * t)) r)) = length a) by (apply rzip_length; lia).
  split; [rewrite rzip_length; lia|].
  intros i Hi. rewrite rzip_nth by lia. rewrite rzip_nth by lia. rewrite !nth_scaled.
  rewrite r_nth, v_nth by assumption. unfold first_difference, second_difference. ring.
Qed.
End Cycle.

Lemma model_cycle scheme factor bd x x1 x2 :
  let r := vsub x1 x in let v := vsub (vsub x2 x1) r in
  let alpha := bound_alpha bd (raw_alpha scheme r v) in
  cycle scheme (mk_step bd alpha (update_bounds factor bd alpha)) x x1 x2 (accelerate alpha x r v).
Proof.
  cbv zeta. intros a b c -> -> -> Hb Hc. cbn [st_before st_alpha]. rewrite !vsub_num. split.
  - intros lo hi -> t E. apply step_num; assumption.
  - intros t ->. apply point_num; assumption.
Qed.

(** Chronological logs. *)
Definition chronological (f : contraction_fn) (scheme : nat) (s : st) (s' : st) (x : fvec)
    (before after : list step) : Prop :=
  exists events steps, s_log s' = rev events ++ s_log s /\ after = rev steps ++ before /\
    squared scheme x events steps.

Lemma evaluate_log f s x y w s1 : evaluate f s x = (y, w, s1) -> s_log s1 = (x, (y, w)) :: s_log s.
Proof. unfold evaluate. intros E. injection E as <- <- <-. cbn [s_log]. rewrite <- surjective_pairing. reflexivity. Qed.

Lemma squarem_squared fuel f t M scheme factor : forall b x0 ev s steps q,
  squarem_loop fuel f t M scheme factor b x0 ev s steps = Some q ->
  chronological f scheme s (o_st (q_out q)) x0 steps (q_steps q).
Proof.
  induction fuel as [|fuel IH]; intros b x0 ev s steps q; cbn [squarem_loop]; [discriminate|].
  destruct (evaluate f s x0) as [[x1 w1] s1] eqn:E1. apply evaluate_log in E1.
  assert (D1 : forall z cv, chronological f scheme s (o_st (mk_out z cv s1)) x0 steps steps).
  { intros z cv. exists [(x0, (x1, w1))], []. cbn [o_st rev app]. repeat split; [assumption|constructor]. }
  destruct (negb (all_finite x1 w1)); [intros E; injection E as <-; cbn [q_out q_steps]; exact (D1 x0 true)|].
  destruct ((M <=? S ev)%nat || _); [intros E; injection E as <-; cbn [q_out q_steps]; exact (D1 x0 true)|].
  destruct (evaluate f s1 x1) as [[x2 w2] s2] eqn:E2. apply evaluate_log in E2.
  assert (D2 : forall z cv, chronological f scheme s (o_st (mk_out z cv s2)) x0 steps steps).
  { intros z cv. exists [(x0, (x1, w1)); (x1, (x2, w2))], []. cbn [o_st rev app]. rewrite E2, E1.
    repeat split. constructor. }
  destruct (negb (all_finite x2 w2)); [intros E; injection E as <-; cbn [q_out q_steps]; exact (D2 x0 true)|].
  destruct ((M <=? S (S ev))%nat || _); [intros E; injection E as <-; cbn [q_out q_steps]; exact (D2 x0 true)|].
  cbv zeta.
  pose proof (model_cycle scheme factor b x0 x1 x2) as C. cbv zeta in C.
  destruct (evaluate f s2 _) as [[x4 w4] s4] eqn:E4. apply evaluate_log in E4.
  match type of C with cycle _ ?st _ _ _ ?p => set (sp := st) in *; set (x3 := p) in * end.
  assert (D4 : forall z cv, chronological f scheme s (o_st (mk_out z cv s4)) x0 steps (sp :: steps)).
  { intros z cv. exists [(x0, (x1, w1)); (x1, (x2, w2)); (x3, (x4, w4))], [sp].
    cbn [o_st rev app]. rewrite E4, E2, E1. repeat split. constructor; [exact C|constructor]. }
  destruct (negb (all_finite x4 w4)); [intros E; injection E as <-; cbn [q_out q_steps]; exact (D4 x0 true)|].
  destruct ((M <=? S (S (S ev)))%nat || _); [intros E; injection E as <-; cbn [q_out q_steps]; exact (D4 x0 true)|].
  intros E. apply IH in E. destruct E as (events & st & L & S & Q).
  exists ((x0, (x1, w1)) :: (x1, (x2, w2)) :: (x3, (x4, w4)) :: events), (sp :: st).
  split; [|split].
  - rewrite L. cbn [rev callback s_log]. rewrite E4, E2, E1. rewrite <- !app_assoc. reflexivity.
  - rewrite S. cbn [rev]. rewrite <- !app_assoc. reflexivity.
  - constructor; assumption.
Qed.

Lemma squarem_trajectory f t M scheme factor b init q :
  squarem_iterator f t M scheme factor b init = Some q ->
  squared scheme init (rev (s_log (o_st (q_out q)))) (rev (q_steps q)).
Proof.
  intros E. apply squarem_squared in E. destruct E as (events & steps & L & S & Q).
  rewrite L, S. cbn [st0 s_log]. rewrite !app_nil_r, !rev_involutive. exact Q.
Qed.

(** Maps with a uniform rate of convergence. *)
Definition proper_norm (norm : fvec -> flt) : Prop :=
  forall l, exists r, norm (map Num l) = Num r /\ 0 <= r /\ ((forall i, nth i l 0 = 0) -> r = 0).

Lemma list_nth_eq (x y : list R) : length x = length y ->
  (forall i, (i < length y)%nat -> nth i x 0 = nth i y 0) -> x = y.
Proof. intros L H. apply (nth_ext x y 0 0 L). intros i Hi. apply H. lia. Qed.

Section Uniform.
Variables (star a b c : list R) (lam : R).
Hypothesis (La : length a = length star) (Lb : length b = length star) (Lc : length c = length star).
Hypothesis (Ib : forall i, (i < length star)%nat -> nth i b 0 - nth i star 0 = lam * (nth i a 0 - nth i star 0)).
Hypothesis (Ic : forall i, (i < length star)%nat -> nth i c 0 - nth i star 0 = lam * (nth i b 0 - nth i star 0)).
Hypothesis (Nl : lam <> 1).

Notation E := (sumn (length a) (fun i => (nth i a 0 - nth i star 0) ^ 2)).

Lemma uniform_first i : (i < length a)%nat -> first_difference a b i = (lam - 1) * (nth i a 0 - nth i star 0).
Proof using La Ib. clear Ic Nl Lb Lc c. intros H. unfold first_difference. specialize (Ib i ltac:(lia)). lra. Qed.

Lemma uniform_second i : (i < length a)%nat ->
  second_difference a b c i = (lam - 1) ^ 2 * (nth i a 0 - nth i star 0).
Proof using La Ib Ic.
  clear Nl Lb Lc. intros H. unfold second_difference. pose proof (Ib i ltac:(lia)) as P. pose proof (Ic i ltac:(lia)) as Q.
  rewrite P in Q. replace (nth i c 0) with (nth i star 0 + lam * (lam * (nth i a 0 - nth i star 0))) by lra.
  replace (nth i b 0) with (nth i star 0 + lam * (nth i a 0 - nth i star 0)) by lra. ring.
Qed.

Lemma uniform_sums :
  sumn (length a) (fun i => first_difference a b i ^ 2) = (lam - 1) ^ 2 * E /\
  sumn (length a) (fun i => first_difference a b i * second_difference a b c i) = (lam - 1) ^ 3 * E /\
  sumn (length a) (fun i => second_difference a b c i ^ 2) = (lam - 1) ^ 4 * E.
Proof using La Ib Ic.
  clear Nl Lb Lc. repeat split; rewrite <- sumn_scal; apply sumn_ext; intros i Hi;
    rewrite ?uniform_first, ?uniform_second by assumption; ring.
Qed.

Lemma zero_distance : E = 0 -> a = star.
Proof using La.
  clear Ib Ic Nl Lb Lc b c lam. intros H. apply list_nth_eq; [assumption|]. intros i Hi.
  assert (P : (nth i a 0 - nth i star 0) ^ 2 <= 0).
  { apply Rle_trans with E; [|lra]. apply (sumn_ge_term (length a) (fun i => (nth i a 0 - nth i star 0) ^ 2)); [|lia].
    intros k _; apply pow2_ge_0. }
  pose proof (pow2_ge_0 (nth i a 0 - nth i star 0)).
  assert (Z : (nth i a 0 - nth i star 0) ^ 2 = 0) by lra.
  destruct (Req_dec (nth i a 0 - nth i star 0) 0) as [e|n]; [lra|].
  exfalso. apply (pow_nonzero _ 2 n Z).
Qed.

Lemma uniform_scheme scheme : E <> 0 ->
  scheme = 1%nat \/ scheme = 2%nat \/ (scheme = 3%nat /\ lam < 1) ->
  scheme_step scheme
    (sumn (length a) (fun i => first_difference a b i ^ 2))
    (sumn (length a) (fun i => first_difference a b i * second_difference a b c i))
    (sumn (length a) (fun i => second_difference a b c i ^ 2)) (/ (lam - 1)).
Proof using La Ib Ic Nl.
  clear Lb Lc. intros N H. destruct uniform_sums as (-> & -> & ->). 
  assert (D : lam - 1 <> 0) by lra.
  destruct H as [->|[->|[-> H]]]; [left|right; left|right; right]; (split; [reflexivity|]).
  - split; [|field; split; assumption]. apply Rmult_integral_contrapositive. split; [apply pow_nonzero|]; assumption.
  - split; [|field; split; assumption]. apply Rmult_integral_contrapositive. split; [apply pow_nonzero|]; assumption.
  - split; [apply Rmult_integral_contrapositive; split; [apply pow_nonzero|]; assumption|].
    replace ((lam - 1) ^ 2 * E / ((lam - 1) ^ 4 * E)) with (/ (1 - lam) * / (1 - lam)) by (field; repeat split; lra).
    rewrite sqrt_square; [field; lra|]. left. apply Rinv_0_lt_compat. lra.
Qed.

Lemma uniform_exact d : extrapolated (/ (lam - 1)) a b c d -> d = star.
Proof using La Ib Ic Nl.
  clear Lb Lc. intros [L H]. apply list_nth_eq; [lia|]. intros i Hi. rewrite H by lia.
  pose proof (Ib i Hi) as P. pose proof (Ic i Hi) as Q. rewrite P in Q.
  replace (nth i c 0) with (nth i star 0 + lam * (lam * (nth i a 0 - nth i star 0))) by lra.
  replace (nth i b 0) with (nth i star 0 + lam * (nth i a 0 - nth i star 0)) by lra.
  field. lra.
Qed.
End Uniform.

Lemma all_finite_num l : all_finite (map Num l) None = true.
Proof. unfold all_finite, vfin. rewrite andb_true_r. induction l; [reflexivity|assumption]. Qed.

Lemma zero_change t l y : proper_norm (t_norm t) -> (forall i, nth i l 0 = 0) ->
  forall at_ rt, t_atol t = Num at_ -> t_rtol t = Num rt -> 0 < at_ -> 0 <= rt ->
  termination_check t (map Num y) (map Num l) None = true.
Proof.
  intros N Z at_ rt A B P Q. unfold termination_check, weight. rewrite A, B.
  destruct (N l) as (n & -> & _ & Z'). rewrite (Z' Z).
  destruct (N y) as (m & -> & Pm & _). cbn [fltb].
  destruct (rltb 0 rt); cbn [fmul fadd fltb]; apply rltb_true; [|assumption].
  assert (0 <= rt * m) by (apply Rmult_le_pos; assumption). lra.
Qed.

Lemma minus_self_nth l i : nth i (rzip Rminus l l) 0 = 0.
Proof.
  destruct (Nat.lt_ge_cases i (length l)) as [L|L].
  - rewrite rzip_nth by (reflexivity || assumption). ring.
  - apply nth_overflow. rewrite rzip_length; lia.
Qed.

Lemma squarem_uniform f t M scheme factor lo hi star lam a at_ rt :
  uniform_rate f star lam -> lam <> 1 -> length a = length star ->
  scheme = 1%nat \/ scheme = 2%nat \/ (scheme = 3%nat /\ lam < 1) ->
  lo <= / (1 - lam) <= hi -> (4 <= M)%nat ->
  proper_norm (t_norm t) -> t_atol t = Num at_ -> t_rtol t = Num rt -> 0 < at_ -> 0 <= rt ->
  exists q, squarem_iterator f t M scheme factor (mk_bounds (Num lo) (Num hi)) (map Num a) = Some q /\
    o_converged (q_out q) = true /\ (length (s_log (o_st (q_out q))) <= 3)%nat /\
    (length (s_log (o_st (q_out q))) = 3%nat -> o_x (q_out q) = map Num star).
Proof.
  intros U Nl La Hs Hb HM Pn Ea Er Pa Pr.
  unfold squarem_iterator. destruct M as [|M]; [lia|]. cbn [squarem_loop].
  destruct (evaluate f st0 (map Num a)) as [[x1 w1] s1] eqn:E1.
  destruct (U (s_log st0) (s_iterations st0) (S (s_evaluations st0)) a La) as (b & Eb & Lb & Ib).
  unfold evaluate in E1. rewrite Eb in E1. cbn [fst snd] in E1. injection E1 as <- <- <-.
  rewrite all_finite_num. cbn [negb].
  destruct (Nat.leb_spec (S M) 1) as [L|_]; [lia|]. cbn [orb].
  destruct (termination_check t (map Num b) (vsub (map Num b) (map Num a)) None) eqn:T1.
  { eexists. split; [reflexivity|]. cbn [q_out o_converged o_st s_log length st0 o_x].
    split; [apply Nat.ltb_lt; lia|]. split; [lia|intros; lia]. }
  match goal with |- context [evaluate f ?s (map Num b)] => set (s1 := s) end.
  destruct (evaluate f s1 (map Num b)) as [[x2 w2] s2] eqn:E2.
  destruct (U (s_log s1) (s_iterations s1) (S (s_evaluations s1)) b Lb) as (c & Ec & Lc & Ic).
  unfold evaluate in E2. rewrite Ec in E2. cbn [fst snd] in E2. injection E2 as <- <- <-.
  rewrite all_finite_num. cbn [negb].
  destruct (Nat.leb_spec (S M) 2) as [L|_]; [lia|]. cbn [orb].
  destruct (termination_check t (map Num c) (vsub (map Num c) (map Num b)) None) eqn:T2.
  { eexists. split; [reflexivity|]. cbn [q_out o_converged o_st s_log length st0 o_x s1].
    split; [apply Nat.ltb_lt; lia|]. split; [lia|intros; lia]. }
  destruct (Req_dec (sumn (length a) (fun i => (nth i a 0 - nth i star 0) ^ 2)) 0) as [Z|Z].
  { exfalso. apply zero_distance in Z; [|assumption]. subst a.
    assert (b = star).
    { apply list_nth_eq; [assumption|]. intros i Hi. specialize (Ib i Hi). lra. }
    subst b. rewrite vsub_num in T1.
    rewrite (zero_change t _ star Pn (minus_self_nth star) at_ rt Ea Er Pa Pr) in T1. discriminate. }
  cbv zeta.
  pose proof (model_cycle scheme factor (mk_bounds (Num lo) (Num hi)) (map Num a) (map Num b) (map Num c)) as C.
  cbv zeta in C.
  assert (R : raw_alpha scheme (vsub (map Num b) (map Num a))
     (vsub (vsub (map Num c) (map Num b)) (vsub (map Num b) (map Num a))) = Num (/ (lam - 1))).
  { rewrite !vsub_num.
    pose proof (uniform_scheme star a b c lam La Ib Ic Nl scheme Z Hs) as S0.
    apply (raw_num scheme _ _ _ _ S0).
    - apply sumn_nonneg. intros i _. apply pow2_ge_0.
    - apply sumn_nonneg. intros i _. apply pow2_ge_0.
    - rewrite vdot_num, r_length by (reflexivity || lia). f_equal. apply sumn_ext. intros i Hi.
      rewrite r_nth by lia. ring.
    - rewrite vdot_num, r_length by (rewrite ?v_length, ?r_length; (reflexivity || lia)).
      f_equal. apply sumn_ext. intros i Hi. rewrite r_nth, v_nth by lia. reflexivity.
    - rewrite vdot_num, v_length by (reflexivity || lia). f_equal. apply sumn_ext. intros i Hi.
      rewrite v_nth by lia. ring. }
  rewrite R in *. rewrite bound_num in *.
  assert (T : - Rmax lo (Rmin hi (- / (lam - 1))) = / (lam - 1)).
  { replace (- / (lam - 1)) with (/ (1 - lam)) by (field; lra).
    rewrite Rmin_right by lra. rewrite Rmax_right by lra. field. lra. }
  rewrite T in *.
  destruct (C a b c eq_refl eq_refl eq_refl ltac:(lia) ltac:(lia)) as [_ C'].
  destruct (C' _ eq_refl) as (d & Ed & X).
  rewrite Ed.
  apply (uniform_exact star a b c lam La Ib Ic Nl) in X. subst d.
  match goal with |- context [evaluate f ?s (map Num star)] => set (s2 := s) end.
  destruct (evaluate f s2 (map Num star)) as [[x4 w4] s4] eqn:E4.
  destruct (U (s_log s2) (s_iterations s2) (S (s_evaluations s2)) star eq_refl) as (d & Ed4 & Ld & Id).
  unfold evaluate in E4. rewrite Ed4 in E4. cbn [fst snd] in E4. injection E4 as <- <- <-.
  rewrite all_finite_num. cbn [negb].
  assert (d = star).
  { apply list_nth_eq; [assumption|]. intros i Hi. specialize (Id i Hi). lra. }
  subst d. rewrite vsub_num.
  rewrite (zero_change t _ star Pn (minus_self_nth star) at_ rt Ea Er Pa Pr).
  rewrite orb_true_r. eexists. split; [reflexivity|].
  cbn [q_out o_converged o_st o_x callback s_log length s2 s1 st0].
  split; [apply Nat.ltb_lt; lia|]. split; [lia|reflexivity].
Qed.

(** Validated options. *)
Lemma valid_options_iff norm at_ rt M :
  valid_options (mk_tol (Num at_) (Num rt) norm) M = true <->
  0 <= at_ /\ 0 <= rt /\ (0 < at_ \/ 0 < rt) /\ (1 <= M)%nat.
Proof.
  unfold valid_options; cbn [t_atol t_rtol fltb feqb].
  rewrite !andb_true_iff, !negb_true_iff, !rltb_false, Nat.ltb_ge, andb_false_iff.
  unfold reqb. destruct (Req_EM_T at_ 0), (Req_EM_T rt 0); intuition (try discriminate; try lra; try lia).
Qed.

Lemma valid_squarem_iff scheme k lo hi :
  valid_squarem_options scheme (Num k) (mk_bounds (Num lo) (Num hi)) = true <->
  (1 <= scheme <= 3)%nat /\ 0 < hi /\ lo <= hi /\ 0 < k.
Proof.
  unfold valid_squarem_options, fleb; cbn [b_max b_min fltb feqb].
  rewrite !andb_true_iff, !negb_true_iff, !orb_true_iff, !orb_false_iff, !rltb_false, !Nat.eqb_eq.
  unfold reqb. destruct (Req_EM_T hi 0), (Req_EM_T k 0); intuition (try discriminate; try lra; try lia).
Qed.
