(** Lemmas about fixed point iteration. *)
From Coq Require Import Reals Lra Lia List Bool Arith.
From Verif Require Import FltModel IterModel IterSpec.
Import ListNotations.

Lemma all_finite_iff x y w : all_finite y w = true <-> finite_event (x, (y, w)).
Proof.
  unfold all_finite, finite_event, vfin; cbn [fst snd]. rewrite andb_true_iff.
  destruct w as [v|]; rewrite !forallb_forall, !Forall_forall; tauto.
Qed.

Lemma termination_iff t x y w :
  termination_check t y (vsub y x) w = true <-> below_tolerance t (x, (y, w)).
Proof. unfold termination_check, below_tolerance, weight, vsub. destruct w; tauto. Qed.

(** What every routine guarantees, whatever it iterates on. *)
Definition run_ok (f : contraction_fn) (t : tolerance) (M : nat) (init : fvec) (o : outcome) : Prop :=
  s_evaluations (o_st o) = length (s_log (o_st o)) /\
  genuine f (s_log (o_st o)) /\
  (length (s_log (o_st o)) <= M)%nat /\
  exists e l, s_log (o_st o) = e :: l /\
    Forall (fun e => finite_event e /\ ~ below_tolerance t e) l /\
    ((~ finite_event e /\ o_converged o = false /\ o_x o = latest init l) \/
     (finite_event e /\ o_x o = fst (snd e) /\
      o_converged o = (length (e :: l) <? M) /\ (length (e :: l) = M \/ below_tolerance t e))).

Definition mid_ok (f : contraction_fn) (t : tolerance) (ev : nat) (s : st) : Prop :=
  s_evaluations s = ev /\ length (s_log s) = ev /\ genuine f (s_log s) /\
  Forall (fun e => finite_event e /\ ~ below_tolerance t e) (s_log s).

Lemma mid_ok_st0 f t : mid_ok f t 0 st0.
Proof. repeat split; constructor. Qed.

Lemma mid_ok_evaluate f t M init ev s x y w s1 :
  mid_ok f t ev s -> (ev < M)%nat -> evaluate f s x = (y, w, s1) ->
  s_log s1 = (x, (y, w)) :: s_log s /\
  (all_finite y w = false ->
     forall z, z = latest init (s_log s) -> run_ok f t M init (mk_out z false s1)) /\
  (all_finite y w = true ->
     ((M <=? S ev) || termination_check t y (vsub y x) w = true ->
        run_ok f t M init (mk_out y (S ev <? M) s1)) /\
     ((M <=? S ev) || termination_check t y (vsub y x) w = false ->
        (S ev < M)%nat /\ mid_ok f t (S ev) s1)).
Proof.
  intros (E1 & E2 & G & F) Hev He. unfold evaluate in He.
  set (r := f (s_log s) (s_iterations s) (S (s_evaluations s)) x) in *.
  injection He as Ey Ew Es.
  assert (Er : r = (y, w)) by (rewrite <- Ey, <- Ew; apply surjective_pairing).
  rewrite Er, E1 in Es. symmetry in Es.
  assert (G1 : genuine f ((x, (y, w)) :: s_log s)).
  { split; [|assumption]. exists (s_iterations s). rewrite <- Er. unfold r. rewrite E1, E2. reflexivity. }
  subst s1. cbn [s_log s_evaluations]. split; [reflexivity|].
  split.
  - intros Hf z Hz. unfold run_ok; cbn [o_st o_x o_converged s_log s_evaluations].
    split; [cbn [length]; rewrite E2; reflexivity|]. split; [assumption|].
    split; [cbn [length]; lia|].
    exists (x, (y, w)), (s_log s). split; [reflexivity|]. split; [assumption|].
    left. split; [|split; [reflexivity|assumption]].
    intros Hn. apply all_finite_iff in Hn. congruence.
  - intros Hf. apply (all_finite_iff x) in Hf. split.
    + intros Ht. unfold run_ok; cbn [o_st o_x o_converged s_log s_evaluations].
      split; [cbn [length]; rewrite E2; reflexivity|]. split; [assumption|].
      split; [cbn [length]; lia|].
      exists (x, (y, w)), (s_log s). split; [reflexivity|]. split; [assumption|].
      right. cbn [fst snd length]. rewrite E2. repeat split; try assumption; try apply Hf.
      apply orb_true_iff in Ht. destruct Ht as [Ht|Ht].
      * left. apply Nat.leb_le in Ht. lia.
      * right. apply termination_iff; assumption.
    + intros Ht. apply orb_false_iff in Ht. destruct Ht as [Ht1 Ht2].
      apply Nat.leb_gt in Ht1. split; [assumption|].
      unfold mid_ok; cbn [s_log s_evaluations length]. rewrite E2. repeat split; try apply G1; try assumption.
      constructor; [|assumption]. split; [assumption|].
      intros Hb. apply termination_iff in Hb. congruence.
Qed.

Lemma run_ok_callback f t M init z c s : run_ok f t M init (mk_out z c s) -> run_ok f t M init (mk_out z c (callback s)).
Proof. destruct s; exact (fun H => H). Qed.

Lemma mid_ok_callback f t ev s : mid_ok f t ev s -> mid_ok f t ev (callback s).
Proof. destruct s; exact (fun H => H). Qed.

Lemma simple_loop_ok fuel f t M init : forall x0 ev s o,
  mid_ok f t ev s -> (ev < M)%nat -> x0 = latest init (s_log s) -> chained init (s_log s) ->
  s_iterations s = ev ->
  simple_loop fuel f t M x0 ev s = Some o ->
  run_ok f t M init o /\ chained init (s_log (o_st o)) /\
  (s_iterations (o_st o) = s_evaluations (o_st o) \/
   S (s_iterations (o_st o)) = s_evaluations (o_st o) /\ o_converged o = false).
Proof.
  induction fuel as [|fuel IH]; intros x0 ev s o Hm Hev Hx Hc Hi; cbn [simple_loop]; [discriminate|].
  destruct (evaluate f s x0) as [[y w] s1] eqn:Ee.
  destruct (mid_ok_evaluate f t M init ev s x0 y w s1 Hm Hev Ee) as (El & Hbad & Hgood).
  assert (Hc1 : chained init (s_log s1)).
  { rewrite El. split; assumption. }
  assert (Hi1 : s_iterations s1 = ev /\ s_evaluations s1 = S ev).
  { destruct Hm as [Hm1 _]. unfold evaluate in Ee. inversion Ee. cbn [s_iterations s_evaluations].
    rewrite Hm1. split; [assumption|reflexivity]. }
  destruct Hi1 as [Hi1 Hi2].
  destruct (all_finite y w) eqn:Ef; cbn [negb].
  - destruct (Hgood eq_refl) as [Ha Hb].
    destruct ((M <=? S ev) || termination_check t y (vsub y x0) w) eqn:Et.
    + intros E; inversion E; subst o.
      split; [apply run_ok_callback, Ha; reflexivity|]. split; [exact Hc1|].
      left. unfold callback; cbn [o_st s_iterations s_evaluations]. lia.
    + destruct (Hb eq_refl) as [Hb1 Hb2]. intros E.
      apply (IH y (S ev) (callback s1) o); [| |  | | |exact E].
      * apply mid_ok_callback; assumption.
      * assumption.
      * unfold callback; cbn [s_log]. rewrite El. reflexivity.
      * exact Hc1.
      * unfold callback; cbn [s_iterations]; lia.
  - intros E; inversion E; subst o. split; [apply Hbad; [reflexivity|assumption]|].
    split; [assumption|]. right. cbn [o_st o_converged]. split; [lia|reflexivity].
Qed.

Lemma simple_ok f t M init o :
  (1 <= M)%nat -> simple_iterator f t M init = Some o ->
  run_ok f t M init o /\ chained init (s_log (o_st o)) /\
  (s_iterations (o_st o) = s_evaluations (o_st o) \/
   S (s_iterations (o_st o)) = s_evaluations (o_st o) /\ o_converged o = false).
Proof.
  intros HM E. apply (simple_loop_ok M f t M init init 0 st0 o); try assumption; try reflexivity;
    try apply mid_ok_st0; exact I.
Qed.

Lemma simple_loop_terminates fuel f t M : forall x0 ev s,
  (M <= fuel + ev)%nat -> (ev < M)%nat -> simple_loop fuel f t M x0 ev s <> None.
Proof.
  induction fuel as [|fuel IH]; intros x0 ev s H1 H2; [lia|]. cbn [simple_loop].
  destruct (evaluate f s x0) as [[y w] s1].
  destruct (negb (all_finite y w)); [discriminate|].
  destruct ((M <=? S ev) || termination_check t y (vsub y x0) w) eqn:Et; [discriminate|].
  apply orb_false_iff in Et. destruct Et as [Et _]. apply Nat.leb_gt in Et.
  apply IH; lia.
Qed.

Lemma simple_terminates f t M init : (1 <= M)%nat -> exists o, simple_iterator f t M init = Some o.
Proof.
  intros HM. destruct (simple_iterator f t M init) as [o|] eqn:E; [exists o; reflexivity|].
  exfalso. apply (simple_loop_terminates M f t M init 0 st0); [lia|lia|exact E].
Qed.

(* ---------- SQUAREM ---------- *)

(** Recorded steps, newest first: each starts from the bounds left by the one before. *)
Fixpoint linked (b : bounds) (steps : list step) : Prop :=
  match steps with
  | [] => True
  | s :: l => st_before s = match l with [] => b | p :: _ => st_after p end /\ linked b l
  end.

Definition current (b : bounds) (steps : list step) : bounds :=
  match steps with [] => b | p :: _ => st_after p end.

Definition step_ok (factor : flt) (s : step) : Prop :=
  (exists raw, st_alpha s = bound_alpha (st_before s) raw) /\
  st_after s = update_bounds factor (st_before s) (st_alpha s).

Lemma squarem_loop_ok fuel f t M init scheme factor b0 : forall b x0 ev s steps q,
  mid_ok f t ev s -> (ev < M)%nat -> x0 = latest init (s_log s) ->
  b = current b0 steps -> linked b0 steps -> Forall (step_ok factor) steps ->
  squarem_loop fuel f t M scheme factor b x0 ev s steps = Some q ->
  run_ok f t M init (q_out q) /\ linked b0 (q_steps q) /\ Forall (step_ok factor) (q_steps q).
Proof.
  induction fuel as [|fuel IH]; intros b x0 ev s steps q Hm Hev Hx Hb Hl Hs; cbn [squarem_loop]; [discriminate|].
  destruct (evaluate f s x0) as [[x1 w1] s1] eqn:E1.
  destruct (mid_ok_evaluate f t M init ev s x0 x1 w1 s1 Hm Hev E1) as (L1 & B1 & G1).
  destruct (all_finite x1 w1) eqn:F1; cbn [negb].
  2: { intros E; injection E as <-; cbn [q_out q_steps]. split; [apply B1; [reflexivity|assumption]|split; assumption]. }
  destruct (G1 eq_refl) as [Ga1 Gb1].
  destruct ((M <=? S ev) || termination_check t x1 (vsub x1 x0) w1) eqn:T1.
  { intros E; injection E as <-; cbn [q_out q_steps]. split; [apply Ga1; reflexivity|split; assumption]. }
  destruct (Gb1 eq_refl) as [Hev1 Hm1]. clear B1 G1 Ga1 Gb1.
  destruct (evaluate f s1 x1) as [[x2 w2] s2] eqn:E2.
  destruct (mid_ok_evaluate f t M init (S ev) s1 x1 x2 w2 s2 Hm1 Hev1 E2) as (L2 & B2 & G2).
  destruct (all_finite x2 w2) eqn:F2; cbn [negb].
  2: { intros E; injection E as <-; cbn [q_out q_steps].
       split; [apply B2; [reflexivity|rewrite L1; reflexivity]|split; assumption]. }
  destruct (G2 eq_refl) as [Ga2 Gb2].
  destruct ((M <=? S (S ev)) || termination_check t x2 (vsub x2 x1) w2) eqn:T2.
  { intros E; injection E as <-; cbn [q_out q_steps]. split; [apply Ga2; reflexivity|split; assumption]. }
  destruct (Gb2 eq_refl) as [Hev2 Hm2]. clear B2 G2 Ga2 Gb2.
  cbv zeta. set (r := vsub x1 x0). set (v := vsub (vsub x2 x1) r).
  set (alpha := bound_alpha b (raw_alpha scheme r v)).
  set (b' := update_bounds factor b alpha).
  set (x3 := accelerate alpha x0 r v).
  set (steps' := mk_step b alpha b' :: steps).
  assert (Hl' : linked b0 steps').
  { split; [cbn [st_before]; rewrite Hb; destruct steps; reflexivity|assumption]. }
  assert (Hs' : Forall (step_ok factor) steps').
  { constructor; [|assumption]. split; cbn [st_before st_alpha st_after]; [eexists; reflexivity|reflexivity]. }
  destruct (evaluate f s2 x3) as [[x4 w4] s4] eqn:E4.
  destruct (mid_ok_evaluate f t M init (S (S ev)) s2 x3 x4 w4 s4 Hm2 Hev2 E4) as (L4 & B4 & G4).
  destruct (all_finite x4 w4) eqn:F4; cbn [negb].
  2: { intros E; injection E as <-; cbn [q_out q_steps].
       split; [apply B4; [reflexivity|rewrite L2; reflexivity]|split; assumption]. }
  destruct (G4 eq_refl) as [Ga4 Gb4].
  destruct ((M <=? S (S (S ev))) || termination_check t x4 (vsub x4 x3) w4) eqn:T4.
  { intros E; injection E as <-; cbn [q_out q_steps].
    split; [apply run_ok_callback, Ga4; reflexivity|split; assumption]. }
  destruct (Gb4 eq_refl) as [Hev4 Hm4]. intros E.
  apply (IH b' x4 (S (S (S ev))) (callback s4) steps' q); [| | | | | |exact E].
  - apply mid_ok_callback; assumption.
  - assumption.
  - unfold callback; cbn [s_log]. rewrite L4; reflexivity.
  - reflexivity.
  - assumption.
  - assumption.
Qed.

Lemma squarem_ok f t M scheme factor b init q :
  (1 <= M)%nat -> squarem_iterator f t M scheme factor b init = Some q ->
  run_ok f t M init (q_out q) /\ linked b (q_steps q) /\ Forall (step_ok factor) (q_steps q).
Proof.
  intros HM E.
  apply (squarem_loop_ok M f t M init scheme factor b b init 0 st0 [] q); try assumption; try reflexivity;
    try apply mid_ok_st0; try exact I; constructor.
Qed.

Lemma squarem_loop_terminates fuel f t M scheme factor : forall b x0 ev s steps,
  (M <= fuel + ev)%nat -> (ev < M)%nat -> squarem_loop fuel f t M scheme factor b x0 ev s steps <> None.
Proof.
  induction fuel as [|fuel IH]; intros b x0 ev s steps H1 H2; [lia|]. cbn [squarem_loop].
  destruct (evaluate f s x0) as [[x1 w1] s1].
  destruct (negb (all_finite x1 w1)); [discriminate|].
  destruct ((M <=? S ev) || _) eqn:T1; [discriminate|].
  destruct (evaluate f s1 x1) as [[x2 w2] s2].
  destruct (negb (all_finite x2 w2)); [discriminate|].
  destruct ((M <=? S (S ev)) || _) eqn:T2; [discriminate|].
  destruct (evaluate f s2 _) as [[x4 w4] s4].
  destruct (negb (all_finite x4 w4)); [discriminate|].
  destruct ((M <=? S (S (S ev))) || _) eqn:T4; [discriminate|].
  apply orb_false_iff in T4. destruct T4 as [T4 _]. apply Nat.leb_gt in T4.
  apply IH; lia.
Qed.

Lemma squarem_terminates f t M scheme factor b init :
  (1 <= M)%nat -> exists q, squarem_iterator f t M scheme factor b init = Some q.
Proof.
  intros HM. destruct (squarem_iterator f t M scheme factor b init) as [q|] eqn:E; [exists q; reflexivity|].
  exfalso. apply (squarem_loop_terminates M f t M scheme factor b init 0 st0 []); [lia|lia|exact E].
Qed.

(* ---------- step length bounds ---------- *)

Local Open Scope R_scope.

Definition rbounds (b : bounds) (lo hi : R) : Prop := b = mk_bounds (Num lo) (Num hi).

Lemma rltb_true x y : rltb x y = true <-> x < y.
Proof. unfold rltb. destruct (Rlt_dec x y); split; intros; try assumption; try reflexivity; try discriminate; contradiction. Qed.

Lemma rltb_false x y : rltb x y = false <-> y <= x.
Proof. unfold rltb. destruct (Rlt_dec x y); split; intros; try reflexivity; try discriminate; lra. Qed.

Lemma reqb_true x y : reqb x y = true <-> x = y.
Proof. unfold reqb. destruct (Req_EM_T x y); split; intros; try assumption; try reflexivity; try discriminate; contradiction. Qed.

Lemma bound_alpha_cases lo hi raw :
  lo <= hi ->
  let alpha := bound_alpha (mk_bounds (Num lo) (Num hi)) raw in
  (raw = NaN /\ alpha = NaN) \/
  (raw <> NaN /\ exists a, alpha = Num a /\ lo <= - a <= hi /\
     (forall x, raw = Num x -> lo <= - x <= hi -> a = x) /\
     (forall x, raw = Num x -> hi < - x -> - a = hi) /\
     (forall x, raw = Num x -> - x < lo -> - a = lo)).
Proof.
  intros Hlh alpha. unfold alpha, bound_alpha; cbn [b_min b_max].
  destruct raw as [x| | |]; [right|right|right|left; split; reflexivity];
    (split; [discriminate|]); cbn [fneg]; unfold fmin, fmax; cbn [fnan orb fltb fneg].
  - destruct (rltb (- x) hi) eqn:E1; cbn [fnan orb fltb fneg].
    + apply rltb_true in E1. destruct (rltb lo (- x)) eqn:E2; cbn [fneg].
      * apply rltb_true in E2. exists (- - x).
        repeat split; try lra; intros y Hy; inversion Hy; subst; intros; lra.
      * apply rltb_false in E2. exists (- lo).
        repeat split; try lra; intros y Hy; inversion Hy; subst; intros; lra.
    + apply rltb_false in E1. destruct (rltb lo hi) eqn:E2; cbn [fneg].
      * exists (- hi). repeat split; try lra; intros y Hy; inversion Hy; subst; intros; lra.
      * apply rltb_false in E2. exists (- lo). repeat split; try lra; intros y Hy; inversion Hy; subst; intros; lra.
  - cbn [fnan orb fltb fneg]. exists (- lo). repeat split; try lra; intros; discriminate.
  - destruct (rltb lo hi) eqn:E2; cbn [fneg].
    + exists (- hi). repeat split; try lra; intros; discriminate.
    + apply rltb_false in E2. exists (- lo). repeat split; try lra; intros; discriminate.
Qed.

Lemma update_bounds_cases lo hi k alpha :
  0 < hi -> lo <= hi -> 1 <= k ->
  exists lo' hi', update_bounds (Num k) (mk_bounds (Num lo) (Num hi)) alpha = mk_bounds (Num lo') (Num hi') /\
    lo' <= lo /\ hi <= hi' /\ 0 < hi' /\ lo' <= hi' /\
    (hi' = hi \/ (hi' = hi * k /\ alpha = Num (- hi))) /\
    (lo' = lo \/ (lo' = lo * k /\ alpha = Num (- lo) /\ lo < 0)).
Proof.
  intros Hh Hlh Hk. unfold update_bounds; cbn [b_min b_max].
  assert (E : forall c, feqb (fneg alpha) (Num c) = true -> alpha = Num (- c)).
  { intros c. destruct alpha; cbn; try discriminate. rewrite reqb_true. intros <-. f_equal. ring. }
  assert (Hhk : hi <= hi * k) by (rewrite <- (Rmult_1_r hi) at 1; apply Rmult_le_compat_l; lra).
  destruct (feqb (fneg alpha) (Num hi)) eqn:E1; destruct (feqb (fneg alpha) (Num lo)) eqn:E2;
    cbn [andb fltb]; try destruct (rltb lo 0) eqn:E3; cbn [fmul];
    try (apply rltb_true in E3; assert (lo * k <= lo) by nra);
    try apply E in E1; try apply E in E2;
    eexists; eexists; (split; [reflexivity|]); repeat split; try lra; try nra;
    try (left; reflexivity); try (right; repeat split; assumption || reflexivity).
Qed.

(** A property of every element of a linked list of steps. *)
Lemma steps_bounds factor k lo hi steps :
  factor = Num k -> 1 <= k -> 0 < hi -> lo <= hi ->
  linked (mk_bounds (Num lo) (Num hi)) steps -> Forall (step_ok factor) steps ->
  (exists lo' hi', current (mk_bounds (Num lo) (Num hi)) steps = mk_bounds (Num lo') (Num hi') /\
     lo' <= lo /\ hi <= hi' /\ 0 < hi' /\ lo' <= hi') /\
  Forall (fun s => exists a b a' b',
    st_before s = mk_bounds (Num a) (Num b) /\ st_after s = mk_bounds (Num a') (Num b') /\
    a' <= a /\ a <= lo /\ hi <= b /\ b <= b' /\
    (b' = b \/ (b' = b * k /\ st_alpha s = Num (- b))) /\
    (a' = a \/ (a' = a * k /\ st_alpha s = Num (- a) /\ a < 0)) /\
    (st_alpha s = NaN \/ exists x, st_alpha s = Num x /\ a <= - x <= b)) steps.
Proof.
  intros Ef Hk Hh Hlh. subst factor. induction steps as [|s l IH]; intros HL HS.
  - split; [|constructor]. exists lo, hi. cbn. repeat split; lra.
  - destruct HL as [HL1 HL2]. inversion HS as [|? ? Hs HS']; subst.
    destruct (IH HL2 HS') as [[a [b (Ec & Ha & Hb & Hb0 & Hab)]] HF].
    assert (Eb : st_before s = mk_bounds (Num a) (Num b)).
    { rewrite HL1. destruct l; exact Ec. }
    destruct Hs as [[raw Hraw] Haft].
    destruct (update_bounds_cases a b k (st_alpha s) Hb0 Hab Hk) as (a' & b' & Eu & U1 & U2 & U3 & U4 & U5 & U6).
    assert (Ea : st_after s = mk_bounds (Num a') (Num b')) by (rewrite Haft, Eb; exact Eu).
    split.
    + exists a', b'. cbn [current]. rewrite Ea. repeat split; lra.
    + constructor; [|assumption]. exists a, b, a', b'. repeat split; try assumption.
      rewrite Eb in Hraw. destruct (bound_alpha_cases a b raw Hab) as [[_ E]|[_ [x [E [Hx _]]]]].
      * left. rewrite Hraw; exact E.
      * right. exists x. rewrite Hraw. split; [exact E|exact Hx].
Qed.

(** A step factor below one, which is accepted, shrinks the maximum below the minimum, after which
    the step length exceeds the maximum. *)
Lemma shrinking_factor :
  let b := mk_bounds (Num 1) (Num 1) in
  valid_squarem_options 3 (Num (/ 2)) b = true /\
  let b' := update_bounds (Num (/ 2)) b (bound_alpha b (Num (-2))) in
  fltb (b_max b') (fneg (bound_alpha b' (Num (-2)))) = true.
Proof.
  cbv zeta. split.
  - unfold valid_squarem_options, fleb; cbn [b_min b_max fltb feqb].
    assert (E1 : rltb 1 0 = false) by (apply rltb_false; lra).
    assert (E2 : reqb 1 0 = false) by (unfold reqb; destruct (Req_EM_T 1 0); [lra|reflexivity]).
    assert (E3 : rltb 1 1 = false) by (apply rltb_false; lra).
    assert (E4 : rltb (/ 2) 0 = false) by (apply rltb_false; lra).
    assert (E5 : reqb (/ 2) 0 = false) by (unfold reqb; destruct (Req_EM_T (/ 2) 0); [lra|reflexivity]).
    rewrite E1, E2, E3, E4, E5. reflexivity.
  - assert (E1 : bound_alpha (mk_bounds (Num 1) (Num 1)) (Num (-2)) = Num (- (1))).
    { unfold bound_alpha, fmin, fmax; cbn [b_min b_max fneg fnan orb fltb].
      assert (A1 : rltb (- -2) 1 = false) by (apply rltb_false; lra). rewrite A1. cbn [fnan orb fltb].
      assert (A2 : rltb 1 1 = false) by (apply rltb_false; lra). rewrite A2. reflexivity. }
    rewrite E1. unfold update_bounds; cbn [b_min b_max fneg feqb fltb].
    assert (A3 : reqb (- - (1)) 1 = true) by (apply reqb_true; lra). rewrite A3.
    assert (A4 : rltb 1 0 = false) by (apply rltb_false; lra). rewrite A4. cbn [andb fmul b_max].
    unfold bound_alpha, fmin, fmax; cbn [b_min b_max fneg fnan orb fltb].
    assert (A5 : rltb (- -2) (1 * / 2) = false) by (apply rltb_false; lra). rewrite A5. cbn [fnan orb fltb].
    assert (A6 : rltb 1 (1 * / 2) = false) by (apply rltb_false; lra). rewrite A6. cbn [fneg fltb].
    apply rltb_true; lra.
Qed.

(* ---------- SciPy root finders ---------- *)

Lemma scipy_run_failed f p : forall failed s,
  (failed = true -> o_converged (scipy_run f p failed s) = false) /\
  exists l, s_log (o_st (scipy_run f p failed s)) = l ++ s_log s /\
    ((exists e, In e l /\ ~ finite_event e) -> o_converged (scipy_run f p failed s) = false).
Proof.
  induction p as [x c|x0 k IH]; intros failed s; cbn [scipy_run].
  - cbn [o_converged o_st]. split; [intros ->; reflexivity|].
    exists []. split; [reflexivity|]. intros [e [[] _]].
  - destruct (evaluate f s x0) as [[y w] s1] eqn:E.
    assert (El : s_log s1 = (x0, (y, w)) :: s_log s).
    { unfold evaluate in E. inversion E. cbn [s_log]. rewrite <- surjective_pairing. reflexivity. }
    set (z := vsub x0 (if all_finite y w then y else x0)).
    destruct (IH z (failed || negb (all_finite y w)) s1) as [I1 [l [I2 I3]]].
    split.
    + intros ->. apply I1; reflexivity.
    + exists (l ++ [(x0, (y, w))]). split.
      * rewrite I2, El, <- app_assoc. reflexivity.
      * intros [e [He Hn]]. apply in_app_or in He. destruct He as [He|[<-|[]]].
        -- apply I3. exists e; split; assumption.
        -- apply I1. destruct (all_finite y w) eqn:Ef; [|apply orb_true_r].
           exfalso. apply Hn. apply all_finite_iff; assumption.
Qed.

(* ---------- forms used by the property theorems ---------- *)

Local Open Scope nat_scope.

Lemma run_ok_converged f t M init o :
  run_ok f t M init o ->
  (o_converged o = true <->
   exists e l, s_log (o_st o) = e :: l /\ finite_event e /\ below_tolerance t e /\
     o_x o = fst (snd e) /\ length (s_log (o_st o)) < M).
Proof.
  intros (E1 & G & HM & e & l & El & Fl & [(Hn & Hc & Hx)|(Hf & Hx & Hc & Ht)]).
  - split; [rewrite Hc; discriminate|]. intros (e' & l' & El' & Hf' & _).
    rewrite El in El'. injection El' as <- <-. contradiction.
  - split.
    + rewrite Hc. intros H. apply Nat.ltb_lt in H. exists e, l.
      split; [assumption|]. split; [assumption|]. split; [|split; [assumption|rewrite El; assumption]].
      destruct Ht; [lia|assumption].
    + intros (e' & l' & El' & _ & _ & _ & Hlt). rewrite Hc. apply Nat.ltb_lt. rewrite <- El. assumption.
Qed.

Lemma run_ok_first f t M init o :
  run_ok f t M init o ->
  forall older e newer, s_log (o_st o) = newer ++ e :: older -> newer <> [] ->
  finite_event e /\ ~ below_tolerance t e.
Proof.
  intros (E1 & G & HM & e & l & El & Fl & _) older e' newer E Hn.
  rewrite El in E. destruct newer as [|a newer]; [congruence|]. injection E as -> ->.
  rewrite Forall_forall in Fl. apply Fl. apply in_or_app. right; left; reflexivity.
Qed.

Lemma run_ok_nonfinite f t M init o :
  run_ok f t M init o ->
  forall newer e older, s_log (o_st o) = newer ++ e :: older -> ~ finite_event e ->
  newer = [] /\ o_converged o = false /\ o_x o = latest init older.
Proof.
  intros H newer e older E Hn. assert (Hfirst := run_ok_first _ _ _ _ _ H older e newer E).
  destruct newer as [|a newer].
  - destruct H as (E1 & G & HM & e' & l & El & Fl & [(Hn' & Hc & Hx)|(Hf & _)]).
    + cbn in E. rewrite El in E. injection E as -> ->. repeat split; assumption.
    + cbn in E. rewrite El in E. injection E as -> ->. contradiction.
  - exfalso. apply Hn, Hfirst. discriminate.
Qed.

Lemma run_ok_finite_result f t M init o :
  run_ok f t M init o -> Forall (fun a => ffin a = true) init -> Forall (fun a => ffin a = true) (o_x o).
Proof.
  intros (E1 & G & HM & e & l & El & Fl & [(Hn & Hc & Hx)|(Hf & Hx & Hc & Ht)]) Hi; rewrite Hx.
  - destruct l as [|[a [y w]] l]; [assumption|]. cbn [latest]. inversion Fl as [|? ? [[Hy _] _] _]; assumption.
  - apply Hf.
Qed.

Lemma simple_budget f t M init :
  1 <= M ->
  exists o, simple_iterator f t M init = Some o /\
    s_evaluations (o_st o) = length (s_log (o_st o)) /\ length (s_log (o_st o)) <= M /\
    genuine f (s_log (o_st o)) /\ chained init (s_log (o_st o)).
Proof.
  intros HM. destruct (simple_terminates f t M init HM) as [o E]. exists o.
  destruct (simple_ok f t M init o HM E) as ((A & B & C & _) & D & _). repeat split; assumption.
Qed.

Lemma simple_convergence f t M init o :
  1 <= M -> simple_iterator f t M init = Some o ->
  (o_converged o = true <->
   exists e l, s_log (o_st o) = e :: l /\ finite_event e /\ below_tolerance t e /\
     o_x o = fst (snd e) /\ length (s_log (o_st o)) < M).
Proof. intros HM E. apply (run_ok_converged f t M init), (simple_ok f t M init o HM E). Qed.

Lemma simple_first_time f t M init o :
  1 <= M -> simple_iterator f t M init = Some o ->
  forall older e newer, s_log (o_st o) = newer ++ e :: older -> newer <> [] ->
  finite_event e /\ ~ below_tolerance t e.
Proof. intros HM E. apply (run_ok_first f t M init), (simple_ok f t M init o HM E). Qed.

Lemma simple_nonfinite f t M init o :
  1 <= M -> simple_iterator f t M init = Some o ->
  (forall newer e older, s_log (o_st o) = newer ++ e :: older -> ~ finite_event e ->
     newer = [] /\ o_converged o = false /\ o_x o = latest init older) /\
  (Forall (fun a => ffin a = true) init -> Forall (fun a => ffin a = true) (o_x o)).
Proof.
  intros HM E. destruct (simple_ok f t M init o HM E) as [H _]. split.
  - apply (run_ok_nonfinite f t M init); assumption.
  - apply (run_ok_finite_result f t M init); assumption.
Qed.

Lemma squarem_nonfinite f t M scheme factor b init q :
  1 <= M -> squarem_iterator f t M scheme factor b init = Some q ->
  (forall newer e older, s_log (o_st (q_out q)) = newer ++ e :: older -> ~ finite_event e ->
     newer = [] /\ o_converged (q_out q) = false /\ o_x (q_out q) = latest init older) /\
  (Forall (fun a => ffin a = true) init -> Forall (fun a => ffin a = true) (o_x (q_out q))).
Proof.
  intros HM E. destruct (squarem_ok f t M scheme factor b init q HM E) as [H _]. split.
  - apply (run_ok_nonfinite f t M init); assumption.
  - apply (run_ok_finite_result f t M init); assumption.
Qed.

Lemma scipy_nonfinite f p :
  (exists e, In e (s_log (o_st (scipy_iterator f p))) /\ ~ finite_event e) ->
  o_converged (scipy_iterator f p) = false.
Proof.
  intros [e [He Hn]]. unfold scipy_iterator in *.
  destruct (scipy_run_failed f p false st0) as [_ [l [El Hl]]].
  apply Hl. exists e. split; [|assumption]. rewrite El in He. cbn [st0 s_log] in He.
  rewrite app_nil_r in He. assumption.
Qed.

Lemma squarem_budget f t M scheme factor b init :
  1 <= M ->
  exists q, squarem_iterator f t M scheme factor b init = Some q /\
    s_evaluations (o_st (q_out q)) = length (s_log (o_st (q_out q))) /\
    length (s_log (o_st (q_out q))) <= M /\ genuine f (s_log (o_st (q_out q))).
Proof.
  intros HM. destruct (squarem_terminates f t M scheme factor b init HM) as [q E]. exists q.
  destruct (squarem_ok f t M scheme factor b init q HM E) as ((A & B & C & _) & _). repeat split; assumption.
Qed.

Lemma squarem_convergence f t M scheme factor b init q :
  1 <= M -> squarem_iterator f t M scheme factor b init = Some q ->
  (o_converged (q_out q) = true <->
   exists e l, s_log (o_st (q_out q)) = e :: l /\ finite_event e /\ below_tolerance t e /\
     o_x (q_out q) = fst (snd e) /\ length (s_log (o_st (q_out q))) < M).
Proof.
  intros HM E. apply (run_ok_converged f t M init), (squarem_ok f t M scheme factor b init q HM E).
Qed.

Lemma squarem_steps f t M scheme k lo hi init q :
  1 <= M -> (1 <= k)%R -> (0 < hi)%R -> (lo <= hi)%R ->
  squarem_iterator f t M scheme (Num k) (mk_bounds (Num lo) (Num hi)) init = Some q ->
  linked (mk_bounds (Num lo) (Num hi)) (q_steps q) /\
  Forall (fun s => exists a b a' b',
    st_before s = mk_bounds (Num a) (Num b) /\ st_after s = mk_bounds (Num a') (Num b') /\
    (a' <= a /\ a <= lo /\ hi <= b /\ b <= b' /\
    (b' = b \/ (b' = b * k /\ st_alpha s = Num (- b))) /\
    (a' = a \/ (a' = a * k /\ st_alpha s = Num (- a) /\ a < 0)) /\
    (st_alpha s = NaN \/ exists x, st_alpha s = Num x /\ a <= - x <= b))%R) (q_steps q).
Proof.
  intros HM Hk Hh Hl E.
  destruct (squarem_ok f t M scheme (Num k) _ init q HM E) as (_ & L & S).
  split; [assumption|].
  apply (steps_bounds (Num k) k lo hi (q_steps q) eq_refl Hk Hh Hl L S).
Qed.

Lemma shrinking_factor_exists :
  exists factor b raw, valid_squarem_options 3 factor b = true /\
    let b' := update_bounds factor b (bound_alpha b raw) in
    fltb (b_max b') (fneg (bound_alpha b' raw)) = true.
Proof.
  destruct shrinking_factor as [A B].
  exists (Num (/ 2)), (mk_bounds (Num 1) (Num 1)), (Num (-2)). split; assumption.
Qed.
