(** Proofs about the scale of idiosyncratic preferences. *)
From Coq Require Import Reals Lra Lia List Bool Arith FunctionalExtensionality.
From Verif Require Import Base DemandSpec DemandModel DemandProofs DemandElim DemandShares SupplyModel SupplySpec SupplyProofs WelfareModel WelfareSpec WelfareProofs PureSpec.
Import ListNotations.
Local Open Scope R_scope.

Lemma highest_bounds J V : 0 <= highest J V /\ (forall k, (k < J)%nat -> V k <= highest J V) /\
  (highest J V = 0 \/ exists k, (k < J)%nat /\ highest J V = V k).
Proof.
  unfold highest. assert (G : forall l, 0 <= fold_right Rmax 0 (map V l) /\ (forall k, In k l -> V k <= fold_right Rmax 0 (map V l)) /\
    (fold_right Rmax 0 (map V l) = 0 \/ exists k, In k l /\ fold_right Rmax 0 (map V l) = V k)).
  { induction l as [|a l [IH1 [IH2 IH3]]]; cbn [map fold_right].
    - split; [lra|]. split; [intros k []|left; reflexivity].
    - assert (M1 := Rmax_l (V a) (fold_right Rmax 0 (map V l))). assert (M2 := Rmax_r (V a) (fold_right Rmax 0 (map V l))). split; [lra|]. split.
      + intros k [->|Hk]; [exact M1|]. specialize (IH2 k Hk). lra.
      + destruct (Rle_dec (V a) (fold_right Rmax 0 (map V l))) as [H|H].
        * rewrite Rmax_right by exact H. destruct IH3 as [E|[k [Hk E]]]; [left; exact E|right; exists k; split; [right; exact Hk|exact E]].
        * rewrite Rmax_left by lra. right. exists a. split; [left; reflexivity|reflexivity]. }
  destruct (G (seq 0 J)) as [A [B C]]. split; [exact A|]. split; [intros k Hk; apply B; apply in_seq; lia|].
  destruct C as [C|[k [Hk C]]]; [left; exact C|right; exists k; split; [apply in_seq in Hk; lia|exact C]].
Qed.
Lemma highest_01 J V v : 0 <= is_highest J V v <= 1.
Proof. unfold is_highest. destruct (Req_EM_T v (highest J V)); lra. Qed.
Lemma some_highest J V : 1 <= how_many J V.
Proof.
  unfold how_many. destruct (highest_bounds J V) as [_ [_ [E|[k [Hk E]]]]].
  - assert (N : 0 <= sumn J (fun k => is_highest J V (V k))) by (apply sumn_nonneg; intros k _; apply highest_01).
    unfold is_highest at 1. destruct (Req_EM_T 0 (highest J V)); lra.
  - assert (N := highest_01 J V 0). assert (P : 1 <= sumn J (fun k => is_highest J V (V k))); [|lra].
    replace 1 with (sumn J (fun l => if Nat.eqb l k then 1 else 0)).
    + apply sumn_le. intros l _. destruct (Nat.eqb_spec l k) as [->|]; [|apply highest_01]. unfold is_highest. destruct (Req_EM_T (V k) (highest J V)); [lra|congruence].
    + rewrite (sumn_single J k _ Hk); [rewrite Nat.eqb_refl; reflexivity|]. intros l _ Ne. destruct (Nat.eqb_spec l k); [congruence|reflexivity].
Qed.
Lemma small_exp x : 0 < x -> exp (- x) < / x.
Proof.
  intros H. assert (E := exp_ineq1 x ltac:(lra)). rewrite exp_Ropp. apply Rinv_lt_contravar; [|lra]. apply Rmult_lt_0_compat; [exact H|apply exp_pos].
Qed.
Lemma near_best J V g e j : 0 < g -> 0 < e -> gap J V g -> (j < J)%nat ->
  Rabs (logit J all_goods true (fun k => V k / e) j - pure_choice J V j) <= INR J * exp (- (g / e)).
Proof.
  intros G E [G0 GK] Hj. set (M := highest J V). set (x := exp (- (g / e))). assert (X : 0 < x) by apply exp_pos.
  set (n := how_many J V). assert (N := some_highest J V). fold n in N.
  assert (W : forall v, v = M \/ v <= M - g -> exp ((v - M) / e) = is_highest J V v * 1 + (1 - is_highest J V v) * exp ((v - M) / e) /\
    0 <= (1 - is_highest J V v) * exp ((v - M) / e) <= (1 - is_highest J V v) * x).
  { intros v H. unfold is_highest. fold M. destruct (Req_EM_T v M) as [->|Ne].
    - replace ((M - M) / e) with 0 by (field; lra). rewrite exp_0. lra.
    - destruct H as [H|H]; [congruence|]. split; [ring|]. assert (P := exp_pos ((v - M) / e)). split; [lra|].
      apply Rmult_le_compat_l; [lra|]. unfold x. assert (L : (v - M) / e <= - (g / e)).
      { replace (- (g / e)) with ((- g) / e) by (field; lra). unfold Rdiv. apply Rmult_le_compat_r; [left; apply Rinv_0_lt_compat; exact E|lra]. }
      destruct (Rle_lt_or_eq_dec _ _ L) as [L'| ->]; [left; apply exp_increasing; exact L'|lra]. }
  set (rest := (1 - is_highest J V 0) * exp ((0 - M) / e) + sumn J (fun k => (1 - is_highest J V (V k)) * exp ((V k - M) / e))).
  assert (Z : exp ((0 - M) / e) + sumn J (fun k => exp ((V k - M) / e)) = n + rest).
  { unfold n, how_many, rest. rewrite (proj1 (W 0 G0)) at 1. rewrite (sumn_ext J (fun k => exp ((V k - M) / e)) (fun k => is_highest J V (V k) + (1 - is_highest J V (V k)) * exp ((V k - M) / e))).
    - rewrite sumn_plus. ring.
    - intros k Hk. rewrite (proj1 (W (V k) (GK k Hk))) at 1. ring. }
  assert (R0 : 0 <= rest) by (unfold rest; apply Rplus_le_le_0_compat; [apply (W 0 G0)|apply sumn_nonneg; intros k Hk; apply (W (V k) (GK k Hk))]).
  assert (R1 : rest <= INR J * x).
  { assert (B : rest <= (1 - is_highest J V 0) * x + sumn J (fun k => (1 - is_highest J V (V k)) * x)).
    { unfold rest. apply Rplus_le_compat; [apply (W 0 G0)|]. apply sumn_le. intros k Hk. apply (W (V k) (GK k Hk)). }
    rewrite sumn_scal_r in B. rewrite (sumn_minus J (fun _ => 1)) in B.
    assert (C : sumn J (fun _ => 1) = INR J) by (clear; induction J as [|J IH]; [reflexivity|]; cbn [sumn]; rewrite IH, S_INR; reflexivity).
    rewrite C in B. unfold n, how_many in N.
    assert (((1 - is_highest J V 0) + (INR J - sumn J (fun k => is_highest J V (V k)))) * x <= INR J * x) by (apply Rmult_le_compat_r; lra). lra. }
  assert (L : logit J all_goods true (fun k => V k / e) j = exp ((V j - M) / e) / (n + rest)).
  { unfold logit, all_goods. cbn [indR]. rewrite <- Z.
    assert (S1 : sumn J (fun k => exp (V k / e)) = exp (M / e) * sumn J (fun k => exp ((V k - M) / e))).
    { rewrite <- sumn_scal. apply sumn_ext. intros k _. rewrite <- exp_plus. f_equal. field. lra. }
    rewrite S1. replace (exp (V j / e)) with (exp (M / e) * exp ((V j - M) / e)) by (rewrite <- exp_plus; f_equal; field; lra).
    replace (1 + exp (M / e) * sumn J (fun k => exp ((V k - M) / e))) with (exp (M / e) * (exp ((0 - M) / e) + sumn J (fun k => exp ((V k - M) / e)))).
    - field. split; [rewrite Z; lra|apply Rgt_not_eq, exp_pos].
    - rewrite Rmult_plus_distr_l, <- exp_plus. replace (M / e + (0 - M) / e) with 0 by (field; lra). rewrite exp_0. reflexivity. }
  rewrite L. unfold pure_choice. fold n. destruct (W (V j) (GK j Hj)) as [W1 W2]. assert (I := highest_01 J V (V j)).
  assert (NR : 0 < n + rest) by lra. assert (Jx : 0 <= INR J * x) by lra.
  unfold is_highest in *. destruct (Req_EM_T (V j) (highest J V)) as [Ev|Ev].
  - rewrite Ev. fold M. replace ((M - M) / e) with 0 by (field; lra). rewrite exp_0.
    replace (1 / (n + rest) - 1 / n) with (- (rest / (n * (n + rest)))) by (field; lra). rewrite Rabs_Ropp, Rabs_right.
    + eapply Rle_trans; [|exact R1]. apply (Rmult_le_reg_r (n * (n + rest))); [nra|]. replace (rest / (n * (n + rest)) * (n * (n + rest))) with rest by (field; lra). assert (1 <= n * (n + rest)) by nra. nra.
    + apply Rle_ge. apply Rmult_le_pos; [exact R0|left; apply Rinv_0_lt_compat; nra].
  - unfold Rdiv at 3. rewrite Rmult_0_l, Rminus_0_r, Rabs_right.
    + rewrite Rminus_0_r, !Rmult_1_l in W2. apply Rle_trans with x.
      * apply (Rmult_le_reg_r (n + rest)); [exact NR|]. unfold Rdiv. rewrite Rmult_assoc, Rinv_l by lra. nra.
      * assert (1 <= INR J) by (replace 1 with (INR 1) by reflexivity; apply le_INR; lia). nra.
    + apply Rle_ge. apply Rmult_le_pos; [left; apply exp_pos|left; apply Rinv_0_lt_compat; exact NR].
Qed.
Lemma gap_weaker J V g g' : g' <= g -> gap J V g -> gap J V g'.
Proof. intros H [A B]. split; [destruct A; [left; assumption|right; lra]|intros k Hk; destruct (B k Hk); [left; assumption|right; lra]]. Qed.
Lemma gap_exists J V : exists g, 0 < g /\ gap J V g.
Proof.
  destruct (highest_bounds J V) as [A [B _]]. set (M := highest J V) in *.
  assert (G : forall n, (n <= J)%nat -> exists g, 0 < g /\ (0 = M \/ 0 <= M - g) /\ forall k, (k < n)%nat -> V k = M \/ V k <= M - g).
  { induction n as [|n IH]; intros H.
    - destruct (Req_dec 0 M) as [E|E]; [exists 1; split; [lra|]; split; [left; exact E|lia]|exists M; split; [lra|]; split; [right; lra|lia]].
    - destruct (IH ltac:(lia)) as [g [G1 [G2 G3]]]. destruct (Req_dec (V n) M) as [E|E].
      + exists g. split; [exact G1|]. split; [exact G2|]. intros k Hk. destruct (Nat.eq_dec k n) as [->|Ne]; [left; exact E|apply G3; lia].
      + assert (Bn := B n ltac:(lia)). exists (Rmin g (M - V n)). assert (M1 := Rmin_l g (M - V n)). assert (M2 := Rmin_r g (M - V n)).
        split; [unfold Rmin; destruct (Rle_dec g (M - V n)); lra|]. split; [destruct G2; [left; assumption|right; lra]|].
        intros k Hk. destruct (Nat.eq_dec k n) as [->|Ne]; [right; lra|]. destruct (G3 k ltac:(lia)); [left; assumption|right; lra]. }
  destruct (G J ltac:(lia)) as [g [G1 G2]]. exists g. split; [exact G1|exact G2].
Qed.
Lemma common_gap J (V : nat -> nat -> R) n : exists g, 0 < g /\ forall i, (i < n)%nat -> gap J (V i) g.
Proof.
  induction n as [|n [g [G H]]]; [exists 1; split; [lra|lia]|]. destruct (gap_exists J (V n)) as [h [Hh Gh]]. exists (Rmin g h).
  split; [unfold Rmin; destruct (Rle_dec g h); lra|]. intros i Hi. destruct (Nat.eq_dec i n) as [->|Ne].
  - apply (gap_weaker J (V n) h); [apply Rmin_r|exact Gh].
  - apply (gap_weaker J (V i) g); [apply Rmin_l|apply H; lia].
Qed.

Lemma scale_valid e m : 0 < e -> mH m = 0%nat -> valid_market m -> valid_market (with_scale e m).
Proof. intros E HH [A B C D F G]. constructor; cbn; intros; try congruence; try assumption. apply D; assumption. Qed.
Lemma pure_probability m e g delta mu safe j : valid_market m -> mH m = 0%nat -> 0 < e -> 0 < g -> gap (mJ m) (fun k => delta k + mu k) g -> (j < mJ m)%nat ->
  Rabs (fst (probabilities_linear (with_scale e m) full_choice safe delta mu) j - pure_choice (mJ m) (fun k => delta k + mu k) j) <= INR (mJ m) * exp (- (g / e)).
Proof.
  intros V HH E G Gp Hj. rewrite (proj1 (probabilities_are_logit (with_scale e m) safe delta mu (scale_valid e m E HH V)) HH j Hj). cbn [eps_scale with_scale mJ].
  exact (near_best (mJ m) (fun k => delta k + mu k) g e j G E Gp Hj).
Qed.
Lemma pure_shares m a e g delta safe j : valid_market m -> mH m = 0%nat -> 0 < e -> 0 < g -> (forall i, (i < aI a)%nat -> 0 <= aw a i) ->
  (forall i, (i < aI a)%nat -> gap (mJ m) (fun k => delta k + amu a i k) g) -> (j < mJ m)%nat ->
  Rabs (market_shares (with_scale e m) a safe delta j - pure_share (mJ m) a delta j) <= INR (mJ m) * exp (- (g / e)) * sumn (aI a) (aw a).
Proof.
  intros V HH E G W Gp Hj. unfold market_shares, pure_share. rewrite <- sumn_minus.
  assert (A : forall n (f : nat -> R), Rabs (sumn n f) <= sumn n (fun k => Rabs (f k))).
  { intros n f. induction n as [|n IH]; cbn [sumn]; [rewrite Rabs_R0; lra|]. eapply Rle_trans; [apply Rabs_triang|]. lra. }
  eapply Rle_trans; [apply A|]. rewrite <- sumn_scal. apply sumn_le. intros i Hi. rewrite <- Rmult_minus_distr_r, Rabs_mult, (Rabs_right (aw a i)) by (apply Rle_ge, W; exact Hi).
  apply Rmult_le_compat_r; [apply W; exact Hi|]. apply pure_probability; try assumption. apply Gp. exact Hi.
Qed.
Lemma vanishing c g : 0 <= c -> 0 < g -> tends_to (fun e => c * exp (- (g / e))) 0.
Proof.
  intros C G err H. exists (err * g / (c + 1)). assert (P : 0 < err * g / (c + 1)) by (apply Rmult_lt_0_compat; [nra|apply Rinv_0_lt_compat; lra]).
  split; [exact P|]. intros e [E1 E2]. rewrite Rminus_0_r, Rabs_right by (apply Rle_ge, Rmult_le_pos; [exact C|left; apply exp_pos]).
  assert (S := small_exp (g / e) ltac:(apply Rmult_lt_0_compat; [exact G|apply Rinv_0_lt_compat; exact E1])).
  replace (/ (g / e)) with (e / g) in S by (field; lra). apply (Rmult_lt_compat_r (c + 1)) in E2; [|lra].
  replace (err * g / (c + 1) * (c + 1)) with (err * g) in E2 by (field; lra).
  apply Rle_lt_trans with (c * (e / g)); [apply Rmult_le_compat_l; lra|]. apply (Rmult_lt_reg_r g); [exact G|].
  replace (c * (e / g) * g) with (c * e) by (field; lra). nra.
Qed.
Lemma squeezed f b l : tends_to b 0 -> (forall e, 0 < e -> Rabs (f e - l) <= b e) -> tends_to f l.
Proof.
  intros B H err P. destruct (B err P) as [e0 [E0 B0]]. exists e0. split; [exact E0|]. intros e He. specialize (B0 e He). specialize (H e (proj1 He)).
  rewrite Rminus_0_r in B0. assert (Q := Rle_abs (b e)). lra.
Qed.

(* ---------- Large scales ---------- *)

Lemma near_uniform J V B e j : 0 < e -> 0 <= B -> (forall k, (k < J)%nat -> Rabs (V k) <= B) -> (j < J)%nat ->
  exp (- (2 * B / e)) / (INR J + 1) <= logit J all_goods true (fun k => V k / e) j <= exp (2 * B / e) / (INR J + 1).
Proof.
  intros E HB HV Hj. unfold logit, all_goods. cbn [indR].
  assert (K : forall k, (k < J)%nat -> exp (- (B / e)) <= exp (V k / e) <= exp (B / e)).
  { assert (M : forall x y, x <= y -> exp x <= exp y) by (intros x y L; destruct L as [L| ->]; [left; apply exp_increasing; exact L|lra]).
    intros k Hk. specialize (HV k Hk). assert (L : - B <= V k <= B) by (unfold Rabs in HV; destruct (Rcase_abs (V k)); lra).
    split; apply M; [replace (- (B / e)) with ((- B) / e) by (field; lra)|]; unfold Rdiv; apply Rmult_le_compat_r; try lra; left; apply Rinv_0_lt_compat; exact E. }
  assert (BE : 0 <= B / e) by (apply Rmult_le_pos; [exact HB|left; apply Rinv_0_lt_compat; exact E]).
  set (h := exp (B / e)) in *. set (l := exp (- (B / e))) in *. assert (L0 : 0 < l) by apply exp_pos. assert (H0 : 0 < h) by apply exp_pos.
  assert (HL : h * l = 1) by (unfold h, l; rewrite <- exp_plus; replace (B / e + - (B / e)) with 0 by ring; apply exp_0).
  assert (H1 : 1 <= h) by (unfold h; assert (X := exp_ineq1_le (B / e)); lra). assert (L1 : l <= 1) by nra.
  assert (C : forall c, sumn J (fun _ => c) = INR J * c) by (intros c; clear; induction J as [|J IH]; [cbn; ring|]; cbn [sumn]; rewrite IH, S_INR; ring).
  assert (S1 : INR J * l <= sumn J (fun k => exp (V k / e))) by (rewrite <- C; apply sumn_le; intros k Hk; apply K; exact Hk).
  assert (S2 : sumn J (fun k => exp (V k / e)) <= INR J * h) by (rewrite <- C; apply sumn_le; intros k Hk; apply K; exact Hk).
  replace (exp (- (2 * B / e))) with (l * l) by (unfold l; rewrite <- exp_plus; f_equal; field; lra).
  replace (exp (2 * B / e)) with (h * h) by (unfold h; rewrite <- exp_plus; f_equal; field; lra).
  set (t := sumn J (fun k => exp (V k / e))) in *. destruct (K j Hj) as [K1 K2]. assert (JP := pos_INR J). set (n := INR J) in *. set (v := exp (V j / e)) in *.
  assert (T : 0 < 1 + t) by nra. assert (N1 : 0 < n + 1) by lra.
  split; apply (Rmult_le_reg_r ((n + 1) * (1 + t))); try nra.
  - replace (l * l / (n + 1) * ((n + 1) * (1 + t))) with (l * l * (1 + t)) by (field; lra). replace (v / (1 + t) * ((n + 1) * (1 + t))) with (v * (n + 1)) by (field; lra).
    assert (A1 : l * t <= n) by nra. assert (A2 : l * (1 + t) <= n + 1) by nra. apply Rle_trans with (l * (n + 1)); [rewrite Rmult_assoc; apply Rmult_le_compat_l; lra|]. apply Rmult_le_compat_r; lra.
  - replace (h * h / (n + 1) * ((n + 1) * (1 + t))) with (h * h * (1 + t)) by (field; lra). replace (v / (1 + t) * ((n + 1) * (1 + t))) with (v * (n + 1)) by (field; lra).
    assert (A1 : n <= h * t) by nra. assert (A2 : n + 1 <= h * (1 + t)) by nra. apply Rle_trans with (h * (n + 1)); [apply Rmult_le_compat_r; lra|]. rewrite Rmult_assoc. apply Rmult_le_compat_l; lra.
Qed.

(* ---------- Surplus ---------- *)

Lemma surplus_proportional M avail mask x i e : 0 < e ->
  individual_surplus (with_scale_full e M) avail mask x i = e * individual_surplus (with_scale_full 1 M) avail mask x i.
Proof.
  intros E. unfold individual_surplus.
  change (surplus_numerator (fm (with_scale_full e M)) (avail i) mask (update_delta (with_scale_full e M) x) (update_mu (with_scale_full e M) x i))
    with (surplus_numerator (fm (with_scale_full 1 M)) (avail i) mask (update_delta (with_scale_full 1 M) x) (update_mu (with_scale_full 1 M) x i)).
  set (N := surplus_numerator _ _ _ _ _). unfold utility_derivatives. rewrite !eps_div. cbn [eps_scale fm with_scale_full with_scale fK1 fX1 fbeta fK2 fX2 fcoef var0].
  set (u := _ + _). unfold Rdiv. rewrite Rinv_1, Rmult_1_r. replace (- (u * / e)) with ((- u) * / e) by ring. rewrite Rinv_mult, Rinv_inv. ring.
Qed.
Lemma expected_max_near J V e : 0 < e -> Rabs (expected_max J all_goods e V - highest J V) <= e * ln (INR J + 1).
Proof.
  intros E. unfold expected_max, all_goods. destruct (highest_bounds J V) as [A [B C]]. set (M := highest J V) in *.
  assert (Mo : forall x y, x <= y -> exp x <= exp y) by (intros x y L; destruct L as [L| ->]; [left; apply exp_increasing; exact L|lra]).
  assert (IE : 0 < / e) by (apply Rinv_0_lt_compat; exact E).
  assert (Cst : forall c, sumn J (fun _ => c) = INR J * c) by (intros c; clear; induction J as [|J IH]; [cbn; ring|]; cbn [sumn]; rewrite IH, S_INR; ring).
  assert (Up : 1 + sumn J (fun j => exp (V j / e)) <= (INR J + 1) * exp (M / e)).
  { assert (sumn J (fun j => exp (V j / e)) <= INR J * exp (M / e)) by (rewrite <- Cst; apply sumn_le; intros k Hk; apply Mo; unfold Rdiv; apply Rmult_le_compat_r; [lra|apply B; exact Hk]).
    assert (1 <= exp (M / e)) by (rewrite <- exp_0; apply Mo; apply Rmult_le_pos; lra). lra. }
  assert (NN : 0 <= sumn J (fun j => exp (V j / e))) by (apply sumn_nonneg; intros k _; left; apply exp_pos).
  assert (Lo : exp (M / e) <= 1 + sumn J (fun j => exp (V j / e))).
  { destruct C as [-> |[k [Hk ->]]]; [unfold Rdiv; rewrite Rmult_0_l, exp_0; lra|].
    assert (exp (V k / e) <= sumn J (fun j => exp (V j / e))); [|lra].
    replace (exp (V k / e)) with (sumn J (fun l => if Nat.eqb l k then exp (V l / e) else 0)).
    - apply sumn_le. intros l _. assert (P := exp_pos (V l / e)). destruct (Nat.eqb l k); lra.
    - rewrite (sumn_single J k _ Hk); [rewrite Nat.eqb_refl; reflexivity|]. intros l _ Ne. destruct (Nat.eqb_spec l k); [congruence|reflexivity]. }
  assert (LM : forall x y, 0 < x -> x <= y -> ln x <= ln y) by (intros x y P L; destruct L as [L| ->]; [left; apply ln_increasing; assumption|lra]).
  assert (L1 := LM _ _ (exp_pos (M / e)) Lo). rewrite ln_exp in L1. assert (JP := pos_INR J).
  assert (L2 := LM (1 + sumn J (fun j => exp (V j / e))) _ ltac:(lra) Up). rewrite ln_mult, ln_exp in L2 by (try apply exp_pos; lra).
  assert (X1 : M <= e * ln (1 + sumn J (fun j => exp (V j / e)))) by (replace M with (e * (M / e)) at 1 by (field; lra); apply Rmult_le_compat_l; lra).
  assert (X2 : e * ln (1 + sumn J (fun j => exp (V j / e))) <= e * ln (INR J + 1) + M).
  { replace (e * ln (INR J + 1) + M) with (e * (ln (INR J + 1) + M / e)) by (field; lra). apply Rmult_le_compat_l; lra. }
  rewrite Rabs_right; lra.
Qed.

(* ---------- Stronger preferences ---------- *)

Lemma stronger_delta c M x : update_delta (stronger c M) x = fun j => c * update_delta M x j.
Proof.
  apply functional_extensionality. intros j. unfold update_delta. cbn [stronger delta0 fK1 fX1 fbeta var0]. rewrite Rmult_plus_distr_l, <- sumn_scal. f_equal.
  apply sumn_ext. intros k _. destruct (uses (fX1 M k)); ring.
Qed.
Lemma stronger_mu c M x : update_mu (stronger c M) x = fun i j => c * update_mu M x i j.
Proof.
  apply functional_extensionality. intros i. apply functional_extensionality. intros j. unfold update_mu, compute_mu. cbn [stronger fK2 fX2 fcoef X2_0].
  rewrite <- sumn_scal. apply sumn_ext. intros k _. ring.
Qed.
Lemma stronger_utilities c m delta mu : c <> 0 -> eps_scale m <> 0 ->
  scaled_utilities (with_scale (c * eps_scale m) m) (fun j => c * delta j) (fun j => c * mu j) = scaled_utilities m delta mu.
Proof.
  intros C E. apply functional_extensionality. intros j. unfold scaled_utilities. rewrite !eps_div. cbn [eps_scale with_scale mH]. change (rho (with_scale (c * eps_scale m) m) j) with (rho m j).
  destruct (Nat.eqb (mH m) 0); unfold Rdiv; rewrite Rinv_mult.
  - replace ((c * delta j + c * mu j) * (/ c * / eps_scale m)) with ((delta j + mu j) * / eps_scale m * (c * / c)) by ring. rewrite Rinv_r by exact C. ring.
  - replace ((c * delta j + c * mu j) * / (1 - rho m j) * (/ c * / eps_scale m)) with ((delta j + mu j) * / (1 - rho m j) * / eps_scale m * (c * / c)) by ring. rewrite Rinv_r by exact C. ring.
Qed.
Lemma stronger_probabilities c m ch safe delta mu : c <> 0 -> eps_scale m <> 0 ->
  probabilities_linear (with_scale (c * eps_scale m) m) ch safe (fun j => c * delta j) (fun j => c * mu j) = probabilities_linear m ch safe delta mu.
Proof. intros C E. unfold probabilities_linear. rewrite (stronger_utilities c m delta mu C E). reflexivity. Qed.
Lemma stronger_derivatives c M second x : c <> 0 -> eps_scale (fm M) <> 0 -> utility_derivatives (stronger c M) second x = utility_derivatives M second x.
Proof.
  intros C E. apply functional_extensionality. intros i. apply functional_extensionality. intros j. unfold utility_derivatives. rewrite !eps_div.
  pose (d := fun col : column => if uses col then (if second then dv2 col else dv1 col) j (x j) else 0).
  change ((sumn (fK1 M) (fun k => d (fX1 M k) * (c * fbeta M k)) + sumn (fK2 M) (fun k => d (fX2 M k) * (c * fcoef M k j i))) / (c * eps_scale (fm M))
    = (sumn (fK1 M) (fun k => d (fX1 M k) * fbeta M k) + sumn (fK2 M) (fun k => d (fX2 M k) * fcoef M k j i)) / eps_scale (fm M)).
  rewrite (sumn_ext (fK1 M) (fun k => d (fX1 M k) * (c * fbeta M k)) (fun k => c * (d (fX1 M k) * fbeta M k))) by (intros k _; ring).
  rewrite (sumn_ext (fK2 M) (fun k => d (fX2 M k) * (c * fcoef M k j i)) (fun k => c * (d (fX2 M k) * fcoef M k j i))) by (intros k _; ring).
  rewrite !sumn_scal. field. split; assumption.
Qed.
Lemma stronger_probs c M x : c <> 0 -> eps_scale (fm M) <> 0 ->
  probs (fm (stronger c M)) (update_delta (stronger c M) x) (update_mu (stronger c M) x) = probs (fm M) (update_delta M x) (update_mu M x) /\
  conds (fm (stronger c M)) (update_delta (stronger c M) x) (update_mu (stronger c M) x) = conds (fm M) (update_delta M x) (update_mu M x).
Proof.
  intros C E. rewrite stronger_delta, stronger_mu. cbn [stronger fm]. split; apply functional_extensionality; intros i; apply functional_extensionality; intros j;
  unfold probs, conds; rewrite (stronger_probabilities c (fm M) full_choice true (update_delta M x) (update_mu M x i) C E); reflexivity.
Qed.
Lemma stronger_same c M x : c <> 0 -> eps_scale (fm M) <> 0 ->
  shares_at (stronger c M) x = shares_at M x /\ lamda_at (stronger c M) x = lamda_at M x /\ gamma_at (stronger c M) x = gamma_at M x /\
  shares_jacobian (stronger c M) x = shares_jacobian M x.
Proof.
  intros C E. destruct (stronger_probs c M x C E) as [P Q]. assert (U := stronger_derivatives c M false x C E).
  split; [apply functional_extensionality; intros j; unfold shares_at; rewrite P; reflexivity|].
  split; [unfold lamda_at; rewrite P, U; reflexivity|]. split; [unfold gamma_at; rewrite P, Q, U; reflexivity|]. unfold shares_jacobian. rewrite P, Q, U. reflexivity.
Qed.
