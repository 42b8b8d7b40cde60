(** Lemmas about convergence of the contraction: existence of matching mean utilities, and
    convergence of iterates from every starting value. *)
From Coq Require Import Reals Lra Lia List Bool Arith.
From Verif Require Import Base DemandModel DemandSpec DemandProofs DemandShares.
Import ListNotations.
Local Open Scope R_scope.

Lemma abs_le x d : Rabs x <= d -> - d <= x <= d.
Proof. unfold Rabs. destruct (Rcase_abs x); lra. Qed.

Lemma sumn_ge_one n (f : nat -> R) k c :
  (forall i, (i < n)%nat -> 0 <= f i) -> (k < n)%nat -> f k = c -> c <= sumn n f.
Proof. intros H Hk <-. apply sumn_ge_term; assumption. Qed.

(* ---------- monotone nonexpansive maps ---------- *)

Section Monotone.
Variable J : nat.
Variable f : (nat -> R) -> (nat -> R).
Hypothesis Fle : forall x y d, 0 <= d -> (forall k, (k < J)%nat -> x k <= y k + d) ->
  forall j, (j < J)%nat -> f x j <= f y j + d.

Notation iter n x := (Nat.iter n f x).

Lemma mono_le x y : (forall k, (k < J)%nat -> x k <= y k) -> forall j, (j < J)%nat -> f x j <= f y j.
Proof.
  intros H j Hj. assert (E := Fle x y 0 (Rle_refl 0)). rewrite <- (Rplus_0_r (f y j)).
  apply E; [|assumption]. intros k Hk. specialize (H k Hk). lra.
Qed.

Lemma nonexp x y d : (forall k, (k < J)%nat -> Rabs (x k - y k) <= d) ->
  forall j, (j < J)%nat -> Rabs (f x j - f y j) <= d.
Proof.
  intros H j Hj.
  assert (H0 : 0 <= d) by (eapply Rle_trans; [apply Rabs_pos|apply (H j Hj)]).
  assert (Hk : forall k, (k < J)%nat -> - d <= x k - y k <= d).
  { intros k Hk. specialize (H k Hk). apply abs_le in H. lra. }
  assert (U : f x j <= f y j + d) by (apply Fle; [assumption|intros k Hk'; specialize (Hk k Hk'); lra|assumption]).
  assert (L : f y j <= f x j + d) by (apply Fle; [assumption|intros k Hk'; specialize (Hk k Hk'); lra|assumption]).
  apply Rabs_le. lra.
Qed.

Lemma iter_le n x y : (forall k, (k < J)%nat -> x k <= y k) ->
  forall j, (j < J)%nat -> iter n x j <= iter n y j.
Proof.
  intros H. induction n as [|n IH]; cbn [Nat.iter]; [assumption|]. apply mono_le. exact IH.
Qed.

(** If every coordinate of the iterates converges, the limit is a fixed point. *)
Lemma limit_fixed x l :
  (forall j, (j < J)%nat -> Un_cv (fun n => iter n x j) (l j)) ->
  forall j, (j < J)%nat -> f l j = l j.
Proof.
  intros H.
  assert (U : forall eps, 0 < eps -> exists N, forall n, (n >= N)%nat -> forall k, (k < J)%nat -> Rabs (iter n x k - l k) < eps).
  { intros eps He.
    assert (G : forall K, (K <= J)%nat -> exists N, forall n, (n >= N)%nat -> forall k, (k < K)%nat -> Rabs (iter n x k - l k) < eps).
    { induction K as [|K IH]; intros HK.
      - exists O. intros n _ k Hk. lia.
      - destruct IH as [N1 H1]; [lia|]. destruct (H K ltac:(lia) eps He) as [N2 H2].
        exists (Nat.max N1 N2). intros n Hn k Hk.
        destruct (Nat.eq_dec k K) as [->|]; [apply H2; lia|apply H1; lia]. }
    apply G. lia. }
  intros j Hj.
  apply cond_eq. intros eps He.
  destruct (U (eps / 2)) as [N HN]; [lra|].
  assert (A := HN N (le_n N)). assert (B := HN (S N) ltac:(lia) j Hj). change (iter (S N) x) with (f (iter N x)) in B.
  assert (C : Rabs (f l j - f (iter N x) j) <= eps / 2).
  { apply nonexp; [|assumption]. intros k Hk. rewrite Rabs_minus_sym. left. apply A; assumption. }
  replace (f l j - l j) with ((f l j - f (iter N x) j) + (f (iter N x) j - l j)) by ring.
  eapply Rle_lt_trans; [apply Rabs_triang|]. lra.
Qed.

Lemma rising x B : (forall j, (j < J)%nat -> x j <= f x j) ->
  (forall n j, (j < J)%nat -> iter n x j <= B j) ->
  exists l, (forall j, (j < J)%nat -> Un_cv (fun n => iter n x j) (l j)).
Proof.
  intros Hx HB.
  assert (G : forall n j, (j < J)%nat -> iter n x j <= iter (S n) x j).
  { induction n as [|n IH]; [exact Hx|]. intros j Hj. change (f (iter n x) j <= f (iter (S n) x) j).
    apply mono_le; [|assumption]. exact IH. }
  assert (C : forall j, (j < J)%nat -> {l : R | Un_cv (fun n => iter n x j) l}).
  { intros j Hj. apply growing_cv.
    - intros n. apply G; assumption.
    - exists (B j). intros y [n ->]. apply HB; assumption. }
  exists (fun j => match lt_dec j J with left H => proj1_sig (C j H) | right _ => 0 end).
  intros j Hj. destruct (lt_dec j J) as [H|]; [|contradiction]. exact (proj2_sig (C j H)).
Qed.

Lemma falling x B : (forall j, (j < J)%nat -> f x j <= x j) ->
  (forall n j, (j < J)%nat -> B j <= iter n x j) ->
  exists l, (forall j, (j < J)%nat -> Un_cv (fun n => iter n x j) (l j)).
Proof.
  intros Hx HB.
  assert (G : forall n j, (j < J)%nat -> iter (S n) x j <= iter n x j).
  { induction n as [|n IH]; [exact Hx|]. intros j Hj. change (f (iter (S n) x) j <= f (iter n x) j).
    apply mono_le; [|assumption]. exact IH. }
  assert (C : forall j, (j < J)%nat -> {l : R | Un_cv (fun n => iter n x j) l}).
  { intros j Hj. apply decreasing_cv.
    - intros n. apply G; assumption.
    - exists (- B j). intros y [n ->]. unfold opp_seq. apply Ropp_le_contravar. apply HB; assumption. }
  exists (fun j => match lt_dec j J with left H => proj1_sig (C j H) | right _ => 0 end).
  intros j Hj. destruct (lt_dec j J) as [H|]; [|contradiction]. exact (proj2_sig (C j H)).
Qed.

(** Iterates from a point that the map raises stay points that the map raises. *)
Lemma rising_iter x n : (forall j, (j < J)%nat -> x j <= f x j) ->
  forall j, (j < J)%nat -> iter n x j <= f (iter n x) j.
Proof.
  intros Hx. induction n as [|n IH]; [exact Hx|]. intros j Hj.
  change (f (iter n x) j <= f (iter (S n) x) j). apply mono_le; [|assumption]. exact IH.
Qed.

Lemma fixed_exists x B : (forall j, (j < J)%nat -> x j <= f x j) ->
  (forall y, (forall j, (j < J)%nat -> y j <= f y j) -> forall j, (j < J)%nat -> y j <= B j) ->
  exists l, forall j, (j < J)%nat -> f l j = l j.
Proof.
  intros Hx HB.
  destruct (rising x B Hx) as [l Hl].
  - intros n j Hj. apply HB; [|assumption]. apply rising_iter; assumption.
  - exists l. apply (limit_fixed x l Hl).
Qed.

Hypothesis Uniq : forall x y, (forall j, (j < J)%nat -> f x j = x j) -> (forall j, (j < J)%nat -> f y j = y j) ->
  forall j, (j < J)%nat -> x j = y j.

Lemma all_converge s x0 : (forall j, (j < J)%nat -> f s j = s j) ->
  forall j, (j < J)%nat -> Un_cv (fun n => iter n x0 j) (s j).
Proof.
  intros Hs j Hj.
  set (r := maxn J (fun k => Rabs (x0 k - s k))).
  assert (Hr : forall k, (k < J)%nat -> Rabs (x0 k - s k) <= r).
  { intros k Hk. apply (maxn_ge J (fun k => Rabs (x0 k - s k))). lia. }
  assert (Hr0 : 0 <= r) by (eapply Rle_trans; [apply Rabs_pos|apply (Hr j Hj)]).
  set (up := fun k => s k + r). set (lo := fun k => s k - r).
  assert (Sfix : forall n k, (k < J)%nat -> iter n s k = s k).
  { induction n as [|n IH]; intros k Hk; [reflexivity|]. change (iter (S n) s) with (f (iter n s)).
    transitivity (f s k); [|auto]. apply Rle_antisym; apply mono_le; try assumption;
    intros i Hi; right; [|symmetry]; apply IH; assumption. }
  assert (Bu : forall n k, (k < J)%nat -> s k <= iter n up k).
  { intros n k Hk. rewrite <- (Sfix n k Hk). apply iter_le; [|assumption]. intros i Hi. unfold up. lra. }
  assert (Bl : forall n k, (k < J)%nat -> iter n lo k <= s k).
  { intros n k Hk. rewrite <- (Sfix n k Hk). apply iter_le; [|assumption]. intros i Hi. unfold lo. lra. }
  assert (Hup : forall k, (k < J)%nat -> f up k <= up k).
  { intros k Hk. unfold up at 2. rewrite <- (Hs k Hk). apply Fle; try assumption. intros i Hi. unfold up. lra. }
  assert (Hlo : forall k, (k < J)%nat -> lo k <= f lo k).
  { intros k Hk. assert (f s k <= f lo k + r).
    { apply Fle; try assumption. intros i Hi. unfold lo. lra. }
    rewrite (Hs k Hk) in H. unfold lo at 1. lra. }
  destruct (falling up s Hup Bu) as [lu Hlu].
  destruct (rising lo s Hlo Bl) as [ll Hll].
  assert (Eu : lu j = s j) by (apply Uniq; [apply (limit_fixed up lu Hlu)|assumption|assumption]).
  assert (El : ll j = s j) by (apply Uniq; [apply (limit_fixed lo ll Hll)|assumption|assumption]).
  assert (Cu := Hlu j Hj). rewrite Eu in Cu. assert (Cl := Hll j Hj). rewrite El in Cl.
  intros eps He. destruct (Cu eps He) as [N1 H1]. destruct (Cl eps He) as [N2 H2].
  exists (Nat.max N1 N2). intros n Hn. specialize (H1 n ltac:(lia)). specialize (H2 n ltac:(lia)).
  unfold R_dist in *. apply Rabs_def2 in H1. apply Rabs_def2 in H2.
  assert (Q : forall k, (k < J)%nat -> lo k <= x0 k <= up k).
  { intros k Hk. assert (Z := Hr k Hk). apply abs_le in Z. unfold lo, up. lra. }
  assert (iter n lo j <= iter n x0 j) by (apply iter_le; [intros k Hk; apply Q; assumption|assumption]).
  assert (iter n x0 j <= iter n up j) by (apply iter_le; [intros k Hk; apply Q; assumption|assumption]).
  apply Rabs_def1; lra.
Qed.
End Monotone.

(* ---------- the contraction with clipping ---------- *)

Lemma clip_scale bounds s1 s2 c :
  match fst bounds with Some lb => 0 < lb | None => True end ->
  match snd bounds with Some ub => 0 < ub | None => True end ->
  0 < c -> c <= 1 -> s1 * c <= s2 ->
  fst (clip_share bounds s1) * c <= fst (clip_share bounds s2).
Proof.
  intros Hl Hu Hc Hc1 H.
  destruct bounds as [[lb|] [ub|]]; cbn [fst snd clip_share] in *;
    try (assert (HL : lb * c <= lb) by nra); try (assert (HU : ub * c <= ub) by nra);
    try (destruct (Rlt_dec s1 lb)); try (destruct (Rlt_dec s2 lb));
    repeat match goal with |- context [Rlt_dec ?a ?b] => destruct (Rlt_dec a b) end; cbn [fst];
    repeat match goal with
           | K : ~ _ < _ |- _ => apply Rnot_lt_le in K
           end;
    repeat match goal with
           | K : s1 < ?b |- _ => assert (s1 * c <= b * c) by nra; revert K
           | K : ?b < s1 |- _ => assert (b * c <= s1 * c) by nra; revert K
           | K : s1 <= ?b |- _ => assert (s1 * c <= b * c) by nra; revert K
           | K : ?b <= s1 |- _ => assert (b * c <= s1 * c) by nra; revert K
           end; intros;
    repeat match goal with
           | K : lb < ub |- _ => assert (lb * c <= ub * c) by nra; revert K
           | K : ub < lb |- _ => assert (ub * c <= lb * c) by nra; revert K
           | K : lb <= ub |- _ => assert (lb * c <= ub * c) by nra; revert K
           | K : ub <= lb |- _ => assert (ub * c <= lb * c) by nra; revert K
           end; intros; lra.
Qed.

Definition positive_bounds (bounds : option R * option R) : Prop :=
  match fst bounds with Some lb => 0 < lb | None => True end /\
  match snd bounds with Some ub => 0 < ub | None => True end.

Lemma clipped_nonexpansive m a safe bounds shares x y d :
  valid_market m -> valid_agents a ->
  (mH m <> O -> forall h, (h < mH m)%nat -> 0 <= grho m h) ->
  1 <= eps_scale m -> positive_bounds bounds -> 0 <= d ->
  (forall k, (k < mJ m)%nat -> x k <= y k + d) ->
  forall j, (j < mJ m)%nat ->
  contraction m a safe bounds shares x j <= contraction m a safe bounds shares y j + d.
Proof.
  intros V A Hr0 He1 [Bl Bu] Hd Hxy j Hj.
  destruct (market_shares_compare m a safe x y d j V A Hr0 Hd Hxy Hj) as [C _].
  assert (Hx := market_shares_pos m a safe x j V A Hj).
  assert (Hy := market_shares_pos m a safe y j V A Hj).
  assert (Hd' := Hxy j Hj).
  assert (He := vm_eps _ V).
  assert (Hgj := gidx_lt m j V Hj).
  assert (Hr1 := grhox_lt m (gidx m j) V Hgj).
  assert (Hc1 : exp ((x j - y j - d) / (eps_scale m * (1 - grhox m (gidx m j)))) <= 1).
  { apply Rle_trans with (exp 0); [apply exp_le|right; apply exp_0].
    assert (0 < / (eps_scale m * (1 - grhox m (gidx m j)))).
    { apply Rinv_0_lt_compat, Rmult_lt_0_compat; lra. }
    rewrite <- (Rmult_0_l (/ (eps_scale m * (1 - grhox m (gidx m j))))). unfold Rdiv.
    apply Rmult_le_compat_r; lra. }
  assert (C2 := clip_scale bounds _ _ _ Bl Bu (exp_pos _) Hc1 C).
  apply (clip_pos bounds _ Bl Bu) in Hx. apply (clip_pos bounds _ Bl Bu) in Hy.
  unfold contraction.
  set (sx := fst (clip_share bounds (market_shares m a safe x j))) in *.
  set (sy := fst (clip_share bounds (market_shares m a safe y j))) in *.
  assert (L : ln sy + (x j - y j - d) / (eps_scale m * (1 - grhox m (gidx m j))) <= ln sx).
  { replace (ln sy + (x j - y j - d) / (eps_scale m * (1 - grhox m (gidx m j))))
      with (ln (sy * exp ((x j - y j - d) / (eps_scale m * (1 - grhox m (gidx m j))))))
      by (rewrite ln_mult by (try assumption; apply exp_pos); rewrite ln_exp; reflexivity).
    apply ln_le'; [apply Rmult_lt_0_compat; [assumption|apply exp_pos]|assumption]. }
  unfold grhox, gidx in L.
  destruct (Nat.eqb_spec (mH m) 0) as [HH|HH].
  - rewrite Rminus_0_r, Rmult_1_r in L.
    assert (Hle : x j - y j - d <= (x j - y j - d) / eps_scale m).
    { set (z := x j - y j - d) in *. assert (Hz : z <= 0) by (unfold z; lra).
      assert (Hi : / eps_scale m <= 1).
      { rewrite <- Rinv_1. apply Rinv_le_contravar; lra. }
      unfold Rdiv. nra. }
    lra.
  - assert (Hr2 : grho m (gid m j) < 1) by (apply (vm_rho _ V HH), (vm_gid _ V HH); assumption).
    rewrite (vm_eps_nest _ V HH), Rmult_1_l in L. unfold rho.
    assert (L2 : (ln sy - ln sx) * (1 - grho m (gid m j)) <= - (x j - y j - d)).
    { replace (- (x j - y j - d))
        with (- ((x j - y j - d) / (1 - grho m (gid m j))) * (1 - grho m (gid m j))) by (field; lra).
      apply Rmult_le_compat_r; lra. }
    lra.
Qed.

(* ---------- bounds on choice probabilities ---------- *)

Lemma group_weight_ge J grp r V j : (j < J)%nat -> r (grp j) < 1 ->
  exp (V j) <= group_weight J grp r all_goods V (grp j).
Proof.
  intros Hj Hr.
  assert (Ex : existsb (fun k => all_goods k && Nat.eqb (grp k) (grp j)) (seq 0 J) = true).
  { apply existsb_intro with j; [assumption|]. cbn [all_goods andb]. apply Nat.eqb_refl. }
  rewrite (group_weight_inclusive _ _ _ _ _ _ Ex).
  replace (exp (V j)) with (Rpower (exp (V j / (1 - r (grp j)))) (1 - r (grp j))).
  - apply Rpower_le_pos; [apply exp_pos| |lra].
    unfold inclusive.
    apply (sumn_ge_one J _ j); [|assumption|cbn [all_goods andb]; rewrite Nat.eqb_refl; reflexivity].
    intros k _. destruct (_ && _); [left; apply exp_pos|lra].
  - unfold Rpower. rewrite ln_exp. f_equal. field. lra.
Qed.

Lemma group_weight_shift J grp r V c h : r h < 1 ->
  group_weight J grp r all_goods (fun k => V k - c) h = exp (- c) * group_weight J grp r all_goods V h.
Proof.
  intros Hr. unfold group_weight.
  destruct (existsb _ _) eqn:Ex; [|ring].
  assert (P := inclusive_pos J grp r all_goods V h Ex).
  replace (inclusive J grp r all_goods (fun k => V k - c) h)
    with (exp (- c / (1 - r h)) * inclusive J grp r all_goods V h).
  - rewrite Rpower_mult_exp by assumption. f_equal. f_equal. field. lra.
  - unfold inclusive. rewrite <- sumn_scal. apply sumn_ext. intros k _.
    destruct (_ && _); [|ring]. rewrite <- exp_plus. f_equal. field. lra.
Qed.

Lemma nested_le_weight J H grp r V j : (j < J)%nat -> (grp j < H)%nat ->
  nested J H grp r all_goods true V j <= group_weight J grp r all_goods V (grp j).
Proof.
  intros Hj Hg. unfold nested, group_share. cbn [indR].
  assert (W0 := weights_nonneg J H grp r all_goods V).
  assert (G0 := group_weight_nonneg J grp r all_goods V (grp j)).
  assert (P := within_pos J grp r all_goods V j Hj eq_refl).
  assert (P1 : within_group J grp r all_goods V j <= 1).
  { assert (T := within_group_total J grp r all_goods V (grp j)).
    assert (Ex : existsb (fun k => all_goods k && Nat.eqb (grp k) (grp j)) (seq 0 J) = true).
    { apply existsb_intro with j; [assumption|]. cbn [all_goods andb]. apply Nat.eqb_refl. }
    rewrite Ex in T. rewrite <- T.
    apply (sumn_ge_one J _ j); [|assumption|rewrite Nat.eqb_refl; reflexivity]. intros k Hk. destruct (Nat.eqb _ _); [|lra].
    left. apply within_pos; [assumption|reflexivity]. }
  set (W := sumn H _) in *. set (G := group_weight _ _ _ _ _ _) in *. set (p := within_group _ _ _ _ _ _) in *.
  assert (Q : 0 <= G / (1 + W) <= G).
  { split.
    - apply Rmult_le_pos; [assumption|]. left; apply Rinv_0_lt_compat; lra.
    - unfold Rdiv. assert (/ (1 + W) <= 1) by (rewrite <- Rinv_1; apply Rinv_le_contravar; lra).
      assert (0 < / (1 + W)) by (apply Rinv_0_lt_compat; lra). nra. }
  nra.
Qed.

Lemma outside_le J H grp r V j : (j < J)%nat -> (forall k, (k < J)%nat -> (grp k < H)%nat) -> r (grp j) < 1 ->
  1 - sumn J (nested J H grp r all_goods true V) <= exp (- V j).
Proof.
  intros Hj Hg Hr. rewrite (nested_total _ _ _ _ _ _ _ Hg). cbn [indR].
  assert (W0 := weights_nonneg J H grp r all_goods V).
  assert (G := group_weight_ge J grp r V j Hj Hr).
  assert (GW : group_weight J grp r all_goods V (grp j) <= sumn H (group_weight J grp r all_goods V)).
  { apply sumn_ge_term; [|auto]. intros k _. apply group_weight_nonneg. }
  set (W := sumn H _) in *. assert (P := exp_pos (V j)).
  replace (1 - W / (1 + W)) with (/ (1 + W)) by (field; lra).
  rewrite exp_Ropp. apply Rinv_le_contravar; lra.
Qed.

(** The shares of all agents together with the outside share. *)
Lemma shares_low m a safe eps : valid_market m -> valid_agents a -> 0 < eps ->
  exists c, forall j, (j < mJ m)%nat -> market_shares m a safe (fun _ => - c) j <= eps.
Proof.
  intros V A He.
  set (B := fun j => sumn (aI a) (fun i => group_weight (mJ m) (gidx m) (grhox m) all_goods
                      (utility m (fun _ => 0) (amu a i)) (gidx m j) * aw a i)).
  set (K := 1 + maxn (mJ m) B).
  assert (HB : forall j, (j < mJ m)%nat -> B j < K).
  { intros j Hj. assert (Z := maxn_ge (mJ m) B j). unfold K. assert (B j <= maxn (mJ m) B) by (apply Z; lia). lra. }
  assert (B0 : forall j, 0 <= B j).
  { intros j. apply sumn_nonneg. intros i Hi. apply Rmult_le_pos; [apply group_weight_nonneg|apply A; assumption]. }
  assert (HK : 0 < K).
  { destruct (vm_J _ V). - assert (Z := HB O ltac:(lia)). assert (Y := B0 O). lra.
    - assert (Z := HB O ltac:(lia)). assert (Y := B0 O). lra. }
  assert (Hs := vm_eps _ V).
  exists (eps_scale m * (ln K - ln eps)). intros j Hj.
  set (c := eps_scale m * (ln K - ln eps)).
  assert (L : market_shares m a safe (fun _ => - c) j <= exp (- (c / eps_scale m)) * B j).
  { unfold market_shares, B. rewrite <- sumn_scal. apply sumn_le. intros i Hi.
    rewrite full_choice_with, probabilities_nested, included_all by assumption.
    replace (exp (- (c / eps_scale m)) * (group_weight (mJ m) (gidx m) (grhox m) all_goods
             (utility m (fun _ => 0) (amu a i)) (gidx m j) * aw a i))
      with ((exp (- (c / eps_scale m)) * group_weight (mJ m) (gidx m) (grhox m) all_goods
             (utility m (fun _ => 0) (amu a i)) (gidx m j)) * aw a i) by ring.
    apply Rmult_le_compat_r; [apply A; assumption|].
    rewrite <- group_weight_shift by (apply grhox_lt; [assumption|apply gidx_lt; assumption]).
    eapply Rle_trans; [apply nested_le_weight; [assumption|apply gidx_lt; assumption]|].
    right. 
    assert (EV : forall k, utility m (fun _ => - c) (amu a i) k = utility m (fun _ => 0) (amu a i) k - c / eps_scale m).
    { intros k. unfold utility. field. lra. }
    unfold group_weight, inclusive. destruct (existsb _ _); [|reflexivity].
    f_equal. apply sumn_ext. intros k _. rewrite EV. reflexivity. }
  eapply Rle_trans; [exact L|].
  replace (c / eps_scale m) with (ln K - ln eps) by (unfold c; field; lra).
  replace (- (ln K - ln eps)) with (ln eps - ln K) by ring.
  unfold Rminus. rewrite exp_plus, exp_Ropp, !exp_ln by assumption.
  assert (Z := HB j Hj). assert (Y := B0 j).
  apply Rle_trans with (eps * / K * K).
  - apply Rmult_le_compat_l; [|lra]. left. apply Rmult_lt_0_compat; [assumption|apply Rinv_0_lt_compat; assumption].
  - right. field. lra.
Qed.

Lemma delta_bounded m a safe shares x :
  valid_market m -> valid_agents a ->
  sumn (mJ m) shares < sumn (aI a) (aw a) ->
  (forall j, (j < mJ m)%nat -> market_shares m a safe x j <= shares j) ->
  forall j, (j < mJ m)%nat ->
  x j <= eps_scale m * (ln (sumn (aI a) (fun i => aw a i * exp (- (amu a i j / eps_scale m))))
                        - ln (sumn (aI a) (aw a) - sumn (mJ m) shares)).
Proof.
  intros V A HS Hx j Hj. assert (Hs := vm_eps _ V).
  set (e := sumn (aI a) (aw a) - sumn (mJ m) shares).
  set (C := sumn (aI a) (fun i => aw a i * exp (- (amu a i j / eps_scale m)))).
  assert (HC : 0 < C).
  { destruct A as [A1 [i [Hi Hwi]]]. apply sumn_pos.
    - intros k Hk. apply Rmult_le_pos; [auto|left; apply exp_pos].
    - exists i. split; [assumption|]. apply Rmult_lt_0_compat; [assumption|apply exp_pos]. }
  assert (He : 0 < e) by (unfold e; lra).
  assert (T : e <= exp (- (x j / eps_scale m)) * C).
  { apply Rle_trans with (sumn (aI a) (aw a) - sumn (mJ m) (market_shares m a safe x)).
    - unfold e. assert (sumn (mJ m) (market_shares m a safe x) <= sumn (mJ m) shares) by (apply sumn_le; assumption). lra.
    - unfold market_shares at 1. rewrite sumn_swap, <- sumn_minus. unfold C. rewrite <- sumn_scal.
      apply sumn_le. intros i Hi. rewrite sumn_scal_r.
      replace (exp (- (x j / eps_scale m)) * (aw a i * exp (- (amu a i j / eps_scale m))))
        with (exp (- utility m x (amu a i) j) * aw a i).
      2:{ replace (- utility m x (amu a i) j) with (- (x j / eps_scale m) + - (amu a i j / eps_scale m))
            by (unfold utility; field; lra). rewrite exp_plus. ring. }
      replace (aw a i - sumn (mJ m) (fst (probabilities_linear m full_choice safe x (amu a i))) * aw a i)
        with ((1 - sumn (mJ m) (fst (probabilities_linear m full_choice safe x (amu a i)))) * aw a i) by ring.
      apply Rmult_le_compat_r; [apply A; assumption|].
      rewrite (sumn_ext (mJ m) (fst (probabilities_linear m full_choice safe x (amu a i)))
                (nested (mJ m) (grpn m) (gidx m) (grhox m) all_goods true (utility m x (amu a i)))).
      + apply outside_le; [assumption|intros k Hk; apply gidx_lt; assumption|].
        apply grhox_lt; [assumption|apply gidx_lt; assumption].
      + intros k Hk. rewrite full_choice_with, probabilities_nested, included_all by assumption. reflexivity. }
  apply ln_le' in T; [|assumption]. rewrite ln_mult, ln_exp in T by (try assumption; apply exp_pos).
  assert (X : x j / eps_scale m <= ln C - ln e) by lra.
  replace (x j) with (eps_scale m * (x j / eps_scale m)) by (field; lra).
  apply Rmult_le_compat_l; lra.
Qed.

(* ---------- existence and convergence ---------- *)

Definition slack_bounds (m : market) (bounds : option R * option R) (shares : nat -> R) : Prop :=
  match fst bounds with
  | Some lb => 0 < lb /\ forall j, (j < mJ m)%nat -> lb < shares j | None => True end /\
  match snd bounds with
  | Some ub => 0 < ub /\ forall j, (j < mJ m)%nat -> shares j < ub | None => True end.

Lemma slack_positive m bounds shares : slack_bounds m bounds shares -> positive_bounds bounds.
Proof. intros [A B]. split; [destruct (fst bounds); [apply A|exact I]|destruct (snd bounds); [apply B|exact I]]. Qed.

Lemma clip_le bounds s target :
  match fst bounds with Some lb => lb < target | None => True end ->
  match snd bounds with Some ub => target < ub | None => True end ->
  (fst (clip_share bounds s) <= target <-> s <= target).
Proof.
  destruct bounds as [[lb|] [ub|]]; cbn [fst snd clip_share]; intros Hl Hu;
    try (destruct (Rlt_dec s lb));
    repeat match goal with |- context [Rlt_dec ?a ?b] => destruct (Rlt_dec a b) end; cbn [fst];
    split; intros; lra.
Qed.

(** Points that the contraction raises are those with shares that are too low. *)
Lemma raised_iff m a safe bounds shares x :
  valid_market m -> valid_agents a ->
  (forall j, (j < mJ m)%nat -> 0 < shares j) -> slack_bounds m bounds shares ->
  forall j, (j < mJ m)%nat ->
  (x j <= contraction m a safe bounds shares x j <-> market_shares m a safe x j <= shares j).
Proof.
  intros V A Hs SB j Hj.
  assert (PB := slack_positive _ _ _ SB). destruct PB as [Pl Pu]. destruct SB as [Sl Su].
  assert (Hp := market_shares_pos m a safe x j V A Hj).
  assert (Hc := clip_pos bounds _ Pl Pu Hp).
  assert (C : fst (clip_share bounds (market_shares m a safe x j)) <= shares j <-> market_shares m a safe x j <= shares j).
  { apply clip_le; [destruct (fst bounds); [apply Sl; assumption|exact I]|destruct (snd bounds); [apply Su; assumption|exact I]]. }
  rewrite <- C. unfold contraction. set (s := fst (clip_share bounds _)) in *.
  assert (L : ln s <= ln (shares j) <-> s <= shares j).
  { split; intros H; [|apply ln_le'; assumption].
    destruct (Rle_lt_dec s (shares j)) as [|G]; [assumption|]. apply ln_increasing in G; [lra|auto]. }
  rewrite <- L. destruct (Nat.eqb_spec (mH m) 0) as [HH|HH]; [lra|].
  assert (Hr : rho m j < 1) by (apply (vm_rho _ V HH), (vm_gid _ V HH); assumption).
  split; intros H; [|assert (0 <= (ln (shares j) - ln s) * (1 - rho m j)) by (apply Rmult_le_pos; lra); lra].
  destruct (Rle_lt_dec (ln s) (ln (shares j))) as [|G]; [assumption|exfalso].
  assert (0 < (ln s - ln (shares j)) * (1 - rho m j)) by (apply Rmult_lt_0_compat; lra). lra.
Qed.

Lemma delta_exists_large m a safe shares :
  valid_market m -> valid_agents a ->
  (mH m <> O -> forall h, (h < mH m)%nat -> 0 <= grho m h) -> 1 <= eps_scale m ->
  (forall j, (j < mJ m)%nat -> 0 < shares j) -> sumn (mJ m) shares < sumn (aI a) (aw a) ->
  exists delta, forall j, (j < mJ m)%nat -> market_shares m a safe delta j = shares j.
Proof.
  intros V A Hr He Hs HS.
  assert (SB : slack_bounds m (None, None) shares) by (split; exact I).
  assert (PB : positive_bounds (None, None)) by (split; exact I).
  assert (HJ := vm_J _ V).
  (* a start below: every share at most the smallest of the given shares *)
  destruct (maxn_attained (pred (mJ m)) (fun j => - shares j)) as [k [Hk Ek]].
  assert (Hmin : forall j, (j < mJ m)%nat -> shares k <= shares j).
  { intros j Hj. assert (Z := maxn_ge (pred (mJ m)) (fun j => - shares j) j ltac:(lia)). cbv beta in *. lra. }
  destruct (shares_low m a safe (shares k) V A (Hs k ltac:(lia))) as [c Hc].
  destruct (fixed_exists (mJ m) (contraction m a safe (None, None) shares)
    (fun x y d => clipped_nonexpansive m a safe (None, None) shares x y d V A Hr He PB)
    (fun _ => - c)
    (fun j => eps_scale m * (ln (sumn (aI a) (fun i => aw a i * exp (- (amu a i j / eps_scale m))))
                        - ln (sumn (aI a) (aw a) - sumn (mJ m) shares)))) as [l Hl].
  - intros j Hj. apply (raised_iff m a safe (None, None) shares (fun _ => - c)); try assumption.
    eapply Rle_trans; [apply Hc; assumption|apply Hmin; assumption].
  - intros y Hy. apply (delta_bounded m a safe shares y V A HS).
    intros j Hj. apply (raised_iff m a safe (None, None) shares y); auto.
  - exists l. apply (fixed_point_matches m a safe (None, None) shares l); try assumption; exact I.
Qed.

Lemma nested_ext J H grp r U1 U2 j : (j < J)%nat -> (forall k, (k < J)%nat -> U1 k = U2 k) ->
  nested J H grp r all_goods true U1 j = nested J H grp r all_goods true U2 j.
Proof.
  intros Hj EU.
  assert (EI : forall h, inclusive J grp r all_goods U1 h = inclusive J grp r all_goods U2 h).
  { intros h. unfold inclusive. apply sumn_ext. intros k Hk. rewrite (EU k Hk). reflexivity. }
  assert (EG : forall h, group_weight J grp r all_goods U1 h = group_weight J grp r all_goods U2 h).
  { intros h. unfold group_weight. rewrite EI. reflexivity. }
  unfold nested, within_group, group_share. rewrite EI, (EU j Hj), EG.
  rewrite (sumn_ext H _ _ (fun h _ => EG h)). reflexivity.
Qed.

Lemma market_shares_ext m a safe x y j : valid_market m -> (j < mJ m)%nat ->
  (forall k, (k < mJ m)%nat -> x k = y k) -> market_shares m a safe x j = market_shares m a safe y j.
Proof.
  intros V Hj E. unfold market_shares. apply sumn_ext. intros i Hi. f_equal.
  rewrite !full_choice_with, !probabilities_nested, included_all by assumption.
  apply nested_ext; [assumption|]. intros k Hk. unfold utility. rewrite (E k Hk). reflexivity.
Qed.

(** Dividing delta and mu by epsilon_scale: the same shares with epsilon_scale one. *)
Lemma shares_rescale m a safe delta j :
  valid_market m -> (j < mJ m)%nat ->
  market_shares m a safe delta j =
  market_shares (mk_market (mJ m) (mH m) (gid m) (rho_multi m) (grho m) 1)
    (mk_agents (aI a) (aw a) (fun i k => amu a i k / eps_scale m)) safe
    (fun k => delta k / eps_scale m) j.
Proof.
  intros V Hj. assert (He := vm_eps _ V).
  assert (V1 : valid_market (mk_market (mJ m) (mH m) (gid m) (rho_multi m) (grho m) 1)).
  { destruct V. split; cbn [mJ mH gid rho_multi grho eps_scale]; try assumption; [lra|reflexivity]. }
  unfold market_shares. cbn [aI aw amu]. apply sumn_ext. intros i Hi. f_equal.
  rewrite !full_choice_with, !probabilities_nested, included_all by assumption.
  cbn [mJ].
  assert (EU : forall k, utility m delta (amu a i) k =
    utility (mk_market (mJ m) (mH m) (gid m) (rho_multi m) (grho m) 1) (fun k0 => delta k0 / eps_scale m)
      (fun k0 => amu a i k0 / eps_scale m) k).
  { intros k. unfold utility. cbn [eps_scale]. field. lra. }
  change (grpn (mk_market (mJ m) (mH m) (gid m) (rho_multi m) (grho m) 1)) with (grpn m).
  change (gidx (mk_market (mJ m) (mH m) (gid m) (rho_multi m) (grho m) 1)) with (gidx m).
  change (grhox (mk_market (mJ m) (mH m) (gid m) (rho_multi m) (grho m) 1)) with (grhox m).
  apply nested_ext; [assumption|]. intros k _. apply EU.
Qed.

Lemma delta_exists m a safe shares :
  valid_market m -> valid_agents a ->
  (mH m <> O -> forall h, (h < mH m)%nat -> 0 <= grho m h) ->
  (forall j, (j < mJ m)%nat -> 0 < shares j) -> sumn (mJ m) shares < sumn (aI a) (aw a) ->
  exists delta, forall j, (j < mJ m)%nat -> market_shares m a safe delta j = shares j.
Proof.
  intros V A Hr Hs HS. assert (He := vm_eps _ V).
  set (m1 := mk_market (mJ m) (mH m) (gid m) (rho_multi m) (grho m) 1).
  set (a1 := mk_agents (aI a) (aw a) (fun i k => amu a i k / eps_scale m)).
  assert (V1 : valid_market m1).
  { destruct V. split; cbn [m1 mJ mH gid rho_multi grho eps_scale]; try assumption; [lra|reflexivity]. }
  destruct (delta_exists_large m1 a1 safe shares) as [d Hd]; try assumption.
  { cbn [m1 eps_scale]; lra. }
  exists (fun k => d k * eps_scale m). intros j Hj. rewrite shares_rescale by assumption.
  rewrite <- (Hd j Hj). fold m1. fold a1. apply market_shares_ext; [assumption|assumption|].
  intros k _. field. lra.
Qed.

Lemma contraction_unique m a safe bounds shares :
  valid_market m -> valid_agents a ->
  (mH m <> O -> forall h, (h < mH m)%nat -> 0 <= grho m h) ->
  (forall j, (j < mJ m)%nat -> 0 < shares j) -> slack_bounds m bounds shares ->
  forall x y, (forall j, (j < mJ m)%nat -> contraction m a safe bounds shares x j = x j) ->
  (forall j, (j < mJ m)%nat -> contraction m a safe bounds shares y j = y j) ->
  forall j, (j < mJ m)%nat -> x j = y j.
Proof.
  intros V A Hr Hs [SL SU] x y Hx Hy.
  apply (shares_injective m a safe x y V A Hr). intros j Hj.
  rewrite (proj1 (fixed_point_matches m a safe bounds shares x V A Hs SL SU) Hx j Hj).
  rewrite (proj1 (fixed_point_matches m a safe bounds shares y V A Hs SL SU) Hy j Hj). reflexivity.
Qed.

Lemma contraction_converges m a safe bounds shares delta start :
  valid_market m -> valid_agents a ->
  (mH m <> O -> forall h, (h < mH m)%nat -> 0 <= grho m h) -> 1 <= eps_scale m ->
  (forall j, (j < mJ m)%nat -> 0 < shares j) -> slack_bounds m bounds shares ->
  (forall j, (j < mJ m)%nat -> market_shares m a safe delta j = shares j) ->
  forall j, (j < mJ m)%nat ->
  Un_cv (fun n => Nat.iter n (contraction m a safe bounds shares) start j) (delta j).
Proof.
  intros V A Hr He Hs SB Hd.
  apply (all_converge (mJ m) (contraction m a safe bounds shares)).
  - intros x y d Hd0. apply clipped_nonexpansive; try assumption. apply (slack_positive _ _ _ SB).
  - apply (contraction_unique m a safe bounds shares V A Hr Hs SB).
  - destruct SB as [SL SU]. apply (fixed_point_matches m a safe bounds shares delta V A Hs SL SU). assumption.
Qed.

Lemma outside_share_positive m a safe delta : valid_market m -> valid_agents a ->
  sumn (mJ m) (market_shares m a safe delta) < sumn (aI a) (aw a).
Proof.
  intros V [Aw [i0 [Hi0 Hw0]]]. unfold market_shares. rewrite sumn_swap.
  assert (P : forall i, sumn (mJ m) (fst (probabilities_linear m full_choice safe delta (amu a i))) < 1).
  { intros i.
    rewrite (sumn_ext (mJ m) (fst (probabilities_linear m full_choice safe delta (amu a i)))
              (nested (mJ m) (grpn m) (gidx m) (grhox m) all_goods true (utility m delta (amu a i)))).
    - rewrite nested_total by (intros k Hk; apply gidx_lt; assumption). cbn [indR].
      apply ratio_lt_1. apply weights_nonneg.
    - intros k Hk. rewrite full_choice_with, probabilities_nested, included_all by assumption. reflexivity. }
  apply sumn_lt.
  - intros i Hi. rewrite sumn_scal_r. specialize (P i). specialize (Aw i Hi). nra.
  - exists i0. split; [assumption|]. rewrite sumn_scal_r. specialize (P i0). nra.
Qed.
