(** Proofs about effective numbers of draws. *)
From Coq Require Import Reals Lra Lia ZArith List Arith.
From Verif Require Import Base SchedModel SchedProofs DiagModel DiagSpec.
Import ListNotations.
Local Open Scope R_scope.

Lemma power_quadratic w k a b : fold_right (fun x acc => x ^ k * (a * x - b) ^ 2 + acc) 0 w = a ^ 2 * power_sum (S (S k)) w - 2 * a * b * power_sum (S k) w + b ^ 2 * power_sum k w.
Proof. induction w as [|x w IH]; unfold power_sum in *; cbn [fold_right]; [ring|]. rewrite IH. cbn [pow]. ring. Qed.
Lemma power_positive w k : w <> [] -> (forall x, In x w -> 0 < x) -> 0 < power_sum k w.
Proof.
  intros N P. destruct w as [|x w]; [contradiction N; reflexivity|]. unfold power_sum. cbn [fold_right].
  assert (X : 0 < x ^ k) by (apply pow_lt, P; left; reflexivity).
  assert (Y : 0 <= fold_right (fun x acc => x ^ k + acc) 0 w); [|lra].
  assert (P' : forall y, In y w -> 0 < y) by (intros y Hy; apply P; right; exact Hy). clear -P'. induction w as [|y w IH]; cbn [fold_right]; [lra|].
  assert (0 < y ^ k) by (apply pow_lt, P'; left; reflexivity). assert (0 <= fold_right (fun x acc => x ^ k + acc) 0 w) by (apply IH; intros z Hz; apply P'; right; exact Hz). lra.
Qed.
Lemma quadratic_nonneg w k a b : (forall x, In x w -> 0 < x) -> 0 <= fold_right (fun x acc => x ^ k * (a * x - b) ^ 2 + acc) 0 w.
Proof.
  induction w as [|x w IH]; intro P; cbn [fold_right]; [lra|]. assert (X : 0 <= x ^ k) by (left; apply pow_lt, P; left; reflexivity).
  assert (Y := pow2_ge_0 (a * x - b)). assert (Z : 0 <= x ^ k * (a * x - b) ^ 2) by (apply Rmult_le_pos; assumption).
  assert (0 <= fold_right (fun x acc => x ^ k * (a * x - b) ^ 2 + acc) 0 w) by (apply IH; intros z Hz; apply P; right; exact Hz). lra.
Qed.
Lemma power_cauchy w k : w <> [] -> (forall x, In x w -> 0 < x) -> power_sum (S k) w ^ 2 <= power_sum k w * power_sum (S (S k)) w.
Proof.
  intros N P. assert (A := power_positive w k N P). assert (Q := quadratic_nonneg w k (power_sum k w) (power_sum (S k) w) P). rewrite power_quadratic in Q.
  set (x := power_sum k w) in *. set (y := power_sum (S k) w) in *. set (z := power_sum (S (S k)) w) in *. clearbody x y z.
  apply Rmult_le_reg_l with x; [exact A|]. replace (x ^ 2 * z - 2 * x * y * y + y ^ 2 * x) with (x * (x * z) - x * y ^ 2) in Q by ring. lra.
Qed.
Lemma quadratic_zero w a b : fold_right (fun x acc => x ^ 0 * (a * x - b) ^ 2 + acc) 0 w = 0 -> forall x, In x w -> a * x = b.
Proof.
  assert (NN : forall w, 0 <= fold_right (fun x acc => x ^ 0 * (a * x - b) ^ 2 + acc) 0 w).
  { clear. induction w as [|x w IH]; cbn [fold_right]; [lra|]. assert (Y := pow2_ge_0 (a * x - b)). assert (O : x ^ 0 = 1) by reflexivity. rewrite O at 1. lra. }
  induction w as [|x w IH]; intros E y Hy; [destruct Hy|]. cbn [fold_right] in E. specialize (NN w). assert (Y := pow2_ge_0 (a * x - b)). assert (O : x ^ 0 = 1) by reflexivity. rewrite O in E.
  assert (Z : (a * x - b) ^ 2 = 0) by lra. destruct Hy as [<-|Hy].
  - cbn [pow] in Z. rewrite Rmult_1_r in Z. apply Rmult_integral in Z. lra.
  - apply IH; [lra|exact Hy].
Qed.
Lemma power_zero w : power_sum 0 w = INR (List.length w).
Proof. induction w as [|x w IH]; [reflexivity|]. unfold power_sum in *. cbn [fold_right List.length]. rewrite IH, S_INR, pow_O. ring. Qed.
Lemma power_same w k x : (forall y, In y w -> y = x) -> power_sum k w = INR (List.length w) * x ^ k.
Proof.
  induction w as [|y w IH]; intro E; [cbn; ring|]. unfold power_sum in *. cbn [fold_right List.length]. rewrite IH by (intros z Hz; apply E; right; exact Hz). rewrite (E y (or_introl eq_refl)), S_INR. ring.
Qed.
Lemma power_scale w c k : power_sum k (map (Rmult c) w) = c ^ k * power_sum k w.
Proof. induction w as [|x w IH]; unfold power_sum in *; cbn [map fold_right]; [ring|]. rewrite IH, Rpow_mult_distr. ring. Qed.
Lemma length_pos (w : list R) : w <> [] -> 0 < INR (List.length w).
Proof. intro N. apply lt_0_INR. destruct w; [contradiction N; reflexivity|cbn; lia]. Qed.

Section One.
Variable w : list R.
Hypothesis N : w <> [].
Hypothesis P : forall x, In x w -> 0 < x.
Notation P1 := (power_sum 1 w).
Notation P2 := (power_sum 2 w).
Notation P3 := (power_sum 3 w).
Notation P4 := (power_sum 4 w).
Lemma below_div a b c d : 0 < b -> 0 < d -> a * d <= c * b -> a / b <= c / d.
Proof.
  intros B D H. apply Rmult_le_reg_r with (b * d); [apply Rmult_lt_0_compat; assumption|]. replace (a / b * (b * d)) with (a * d) by (field; lra). replace (c / d * (b * d)) with (c * b) by (field; lra). exact H.
Qed.
Lemma variance_skewness : effective_draws_for_variance w <= effective_draws_for_skewness w.
Proof.
  assert (p2 := power_positive w 2 N P). assert (p3 := power_positive w 3 N P). assert (p4 := power_positive w 4 N P). assert (C := power_cauchy w 2 N P).
  unfold effective_draws_for_variance, effective_draws_for_skewness. apply below_div; [exact p4|apply pow_lt, p3|].
  replace (P2 ^ 3 * P4) with (P2 ^ 2 * (P2 * P4)) by ring. apply Rmult_le_compat_l; [left; apply pow_lt, p2|exact C].
Qed.
Lemma skewness_plain : effective_draws_for_skewness w <= effective_draws w.
Proof.
  assert (p1 := power_positive w 1 N P). assert (p2 := power_positive w 2 N P). assert (p3 := power_positive w 3 N P). assert (C := power_cauchy w 1 N P).
  unfold effective_draws_for_skewness, effective_draws, weight_sum. apply below_div; [apply pow_lt, p3|exact p2|].
  replace (P2 ^ 3 * P2) with (P2 ^ 2 * P2 ^ 2) by ring. replace (P1 ^ 2 * P3 ^ 2) with ((P1 * P3) * (P1 * P3)) by ring.
  assert (0 <= P2 ^ 2) by (left; apply pow_lt, p2). apply Rmult_le_compat; assumption.
Qed.
Lemma plain_equal : effective_draws w = INR (List.length w) -> all_same w.
Proof.
  intro E. assert (p1 := power_positive w 1 N P). assert (p2 := power_positive w 2 N P). assert (n0 := length_pos w N). unfold effective_draws, weight_sum in E.
  assert (E2 : P1 ^ 2 = INR (List.length w) * P2) by (rewrite <- E; field; lra).
  assert (Q := power_quadratic w 0 (INR (List.length w)) P1). rewrite power_zero in Q.
  assert (Z : fold_right (fun x acc => x ^ 0 * (INR (List.length w) * x - P1) ^ 2 + acc) 0 w = 0) by (rewrite Q; nra).
  intros x y Hx Hy. assert (X := quadratic_zero w _ _ Z x Hx). assert (Y := quadratic_zero w _ _ Z y Hy). apply Rmult_eq_reg_l with (INR (List.length w)); lra.
Qed.
Lemma same_variance : all_same w -> effective_draws_for_variance w = INR (List.length w).
Proof.
  intro S. destruct w as [|x l] eqn:E; [contradiction N; reflexivity|]. rewrite <- E in *. assert (Hx : In x w) by (rewrite E; left; reflexivity). assert (X := P x Hx).
  assert (H : forall y, In y w -> y = x) by (intros y Hy; apply S; assumption). assert (n0 : 0 < INR (List.length w)) by (apply length_pos; rewrite E; discriminate).
  unfold effective_draws_for_variance. rewrite (power_same w 2 x H), (power_same w 4 x H). field. lra.
Qed.
End One.

Lemma chain w : w <> [] -> (forall x, In x w -> 0 < x) ->
  1 <= effective_draws_for_variance w /\ effective_draws_for_variance w <= effective_draws_for_skewness w /\ effective_draws_for_skewness w <= effective_draws w /\ effective_draws w <= INR (List.length w).
Proof.
  intros N P. destruct (effective_bounds w N P) as ((_ & A) & (B & _) & _). split; [exact B|]. split; [exact (variance_skewness w N P)|]. split; [exact (skewness_plain w N P)|exact A].
Qed.

Lemma power_sumn n f k : power_sum k (map f (seq 0 n)) = sumn n (fun i => f i ^ k).
Proof.
  induction n as [|n IH]; [reflexivity|]. rewrite seq_S, map_app. cbn [map sumn Nat.add]. rewrite <- IH. unfold power_sum. rewrite fold_right_app. cbn [fold_right].
  assert (X : forall l a, fold_right (fun x acc => x ^ k + acc) a l = fold_right (fun x acc => x ^ k + acc) 0 l + a) by (induction l as [|y l IHl]; intro a; cbn [fold_right]; [ring|rewrite IHl; ring]).
  rewrite X. ring.
Qed.
Lemma variance_of_mean n states q y mu v w : uncorrelated n states q y mu v -> sumn n w <> 0 -> sumn n (fun i => w i ^ 2) <> 0 ->
  expected states q (fun s => (sumn n (fun i => w i * y i s) / sumn n w - mu) ^ 2) = v / effective_draws (map w (seq 0 n)).
Proof.
  intros [_ C] W W2. unfold effective_draws, weight_sum. rewrite !power_sumn. rewrite (sumn_ext n (fun i => w i ^ 1) w) by (intros; ring).
  assert (X : forall s, (sumn n (fun i => w i * y i s) / sumn n w - mu) ^ 2 = / sumn n w ^ 2 * sumn n (fun i => sumn n (fun j => w i * w j * ((y i s - mu) * (y j s - mu))))).
  { intro s. assert (D : sumn n (fun i => w i * (y i s - mu)) = sumn n (fun i => w i * y i s) - mu * sumn n w).
    { rewrite (sumn_ext n _ (fun i => w i * y i s - mu * w i)) by (intros; ring). rewrite sumn_minus, sumn_scal. reflexivity. }
    assert (Q : sumn n (fun i => sumn n (fun j => w i * w j * ((y i s - mu) * (y j s - mu)))) = sumn n (fun i => w i * (y i s - mu)) ^ 2).
    { cbn [pow]. rewrite Rmult_1_r. rewrite <- sumn_scal_r. apply sumn_ext. intros i _. rewrite <- sumn_scal. apply sumn_ext. intros j _. ring. }
    rewrite Q, D. field. exact W. }
  unfold expected. rewrite (sumn_ext states _ (fun s => / sumn n w ^ 2 * sumn n (fun i => sumn n (fun j => w i * w j * (q s * ((y i s - mu) * (y j s - mu))))))).
  2: { intros s _. rewrite X. rewrite <- Rmult_assoc, (Rmult_comm (q s)), Rmult_assoc. f_equal. rewrite <- sumn_scal. apply sumn_ext. intros i _. rewrite <- sumn_scal. apply sumn_ext. intros j _. ring. }
  rewrite sumn_scal. rewrite sumn_swap. match goal with |- _ * ?s = _ => replace s with (sumn n (fun i => w i ^ 2 * v)) end.
  - rewrite sumn_scal_r. field. split; [exact W2|exact W].
  - symmetry. apply sumn_ext. intros i Hi. rewrite sumn_swap. rewrite (sumn_ext n _ (fun j => w i * w j * (if Nat.eqb i j then v else 0))).
    + rewrite (sumn_single n i); [rewrite Nat.eqb_refl; ring|exact Hi|]. intros j _ Ne. rewrite (proj2 (Nat.eqb_neq i j)) by congruence. ring.
    + intros j Hj. rewrite sumn_scal. f_equal. exact (C i j Hi Hj).
Qed.

(* ---------- What is displayed ---------- *)

Lemma np_min_spec l : l <> [] -> In (np_min l) l /\ forall x, In x l -> np_min l <= x.
Proof.
  destruct l as [|a l]; [intro N; contradiction N; reflexivity|]. intros _. cbn [np_min]. induction l as [|b l IH]; cbn [fold_right].
  - split; [left; reflexivity|]. intros x [<-|[]]. lra.
  - destruct IH as [I M]. unfold Rmin at 1 3. destruct (Rle_dec b (fold_right Rmin a l)) as [L|L].
    + split; [right; left; reflexivity|]. intros x [<-|[<-|Hx]]; [specialize (M a (or_introl eq_refl)); lra|lra|specialize (M x (or_intror Hx)); lra].
    + split; [destruct I as [I|I]; [left; exact I|right; right; exact I]|]. intros x [<-|[<-|Hx]]; [exact (M a (or_introl eq_refl))|lra|exact (M x (or_intror Hx))].
Qed.
Lemma np_max_spec l : l <> [] -> In (np_max l) l /\ forall x, In x l -> x <= np_max l.
Proof.
  destruct l as [|a l]; [intro N; contradiction N; reflexivity|]. intros _. cbn [np_max]. induction l as [|b l IH]; cbn [fold_right].
  - split; [left; reflexivity|]. intros x [<-|[]]. lra.
  - destruct IH as [I M]. unfold Rmax at 1 3. destruct (Rle_dec b (fold_right Rmax a l)) as [L|L].
    + split; [destruct I as [I|I]; [left; exact I|right; right; exact I]|]. intros x [<-|[<-|Hx]]; [exact (M a (or_introl eq_refl))|lra|exact (M x (or_intror Hx))].
    + split; [right; left; reflexivity|]. intros x [<-|[<-|Hx]]; [specialize (M a (or_introl eq_refl)); lra|lra|specialize (M x (or_intror Hx)); lra].
Qed.
Lemma np_min_mono (f g : list R -> R) l : l <> [] -> (forall w, In w l -> f w <= g w) -> np_min (map f l) <= np_min (map g l).
Proof.
  intros N H. assert (Nf : map f l <> []) by (destruct l; [contradiction N; reflexivity|discriminate]). assert (Ng : map g l <> []) by (destruct l; [contradiction N; reflexivity|discriminate]).
  destruct (np_min_spec _ Nf) as [_ Mf]. destruct (np_min_spec _ Ng) as [Ig _]. apply in_map_iff in Ig. destruct Ig as (w & E & Hw). rewrite <- E. apply Rle_trans with (f w); [apply Mf, in_map, Hw|apply H, Hw].
Qed.
Lemma truncate_mono x y : x <= y -> (truncate x <= truncate y)%Z.
Proof.
  intro L. unfold truncate. destruct (base_Int_part x) as [A1 A2]. destruct (base_Int_part y) as [B1 B2]. apply Z.lt_succ_r. apply lt_IZR. unfold Z.succ. rewrite plus_IZR. lra.
Qed.
Lemma truncate_IZR z : truncate (IZR z) = z.
Proof.
  unfold truncate. destruct (base_Int_part (IZR z)) as [A1 A2]. apply Z.le_antisymm; [apply le_IZR, A1|]. apply Z.lt_succ_r, lt_IZR. unfold Z.succ. rewrite plus_IZR. lra.
Qed.
Lemma total_rows (markets : list (list R)) draws : (forall w, In w markets -> List.length w = draws) -> List.length (concat markets) = (draws * List.length markets)%nat.
Proof.
  induction markets as [|w l IH]; intro H; [cbn; lia|]. cbn [concat List.length]. rewrite app_length, IH by (intros v Hv; apply H; right; exact Hv). rewrite (H w (or_introl eq_refl)). lia.
Qed.
Lemma displayed draws markets : (0 < draws)%nat -> markets <> [] -> (forall w, In w markets -> List.length w = draws /\ forall x, In x w -> 0 < x) ->
  let d := displayed_diagnostics draws markets in
  total_draws d = (draws * List.length markets)%nat /\ draws_per_market d = draws /\
  (1 <= min_for_variance d <= min_for_skewness d)%Z /\ (min_for_skewness d <= min_effective d <= Z.of_nat draws)%Z /\
  (exists w, In w markets /\ IZR (min_effective d) <= effective_draws w < IZR (min_effective d) + 1) /\
  (exists w, In w markets /\ IZR (min_for_variance d) <= effective_draws_for_variance w < IZR (min_for_variance d) + 1) /\
  (exists w, In w markets /\ IZR (min_for_skewness d) <= effective_draws_for_skewness w < IZR (min_for_skewness d) + 1) /\
  (forall w, In w markets -> IZR (min_effective d) <= effective_draws w /\ IZR (min_for_variance d) <= effective_draws_for_variance w /\ IZR (min_for_skewness d) <= effective_draws_for_skewness w /\
    min_weight_sum d <= weight_sum w <= max_weight_sum d) /\
  (exists w, In w markets /\ min_weight_sum d = weight_sum w) /\ (exists w, In w markets /\ max_weight_sum d = weight_sum w).
Proof.
  intros D N H d. assert (Nm : forall f : list R -> R, map f markets <> []) by (intro f; destruct markets; [contradiction N; reflexivity|discriminate]).
  assert (C : forall w, In w markets -> 1 <= effective_draws_for_variance w /\ effective_draws_for_variance w <= effective_draws_for_skewness w /\ effective_draws_for_skewness w <= effective_draws w /\ effective_draws w <= INR draws).
  { intros w Hw. destruct (H w Hw) as [L P]. rewrite <- L. apply chain; [intros ->; cbn in L; lia|exact P]. }
  assert (B : forall (f : list R -> R) (x : R), In x (map f markets) -> exists w, In w markets /\ x = f w) by (intros f x I; apply in_map_iff in I; destruct I as (w & E & Hw); exists w; auto).
  cbn [d displayed_diagnostics total_draws draws_per_market min_effective min_for_variance min_for_skewness min_weight_sum max_weight_sum].
  destruct (np_min_spec _ (Nm effective_draws)) as [I1 M1]. destruct (np_min_spec _ (Nm effective_draws_for_variance)) as [I2 M2]. destruct (np_min_spec _ (Nm effective_draws_for_skewness)) as [I3 M3].
  destruct (np_min_spec _ (Nm weight_sum)) as [I4 M4]. destruct (np_max_spec _ (Nm weight_sum)) as [I5 M5].
  split; [apply total_rows; intros w Hw; apply (H w Hw)|]. split; [reflexivity|]. split; [split|].
  - rewrite <- (truncate_IZR 1). apply truncate_mono. destruct (B _ _ I2) as (w & Hw & ->). apply (C w Hw).
  - apply truncate_mono, np_min_mono; [exact N|]. intros w Hw. apply (C w Hw).
  - split; [split|split; [|split; [|split; [|split; [|split]]]]].
    + apply truncate_mono, np_min_mono; [exact N|]. intros w Hw. apply (C w Hw).
    + rewrite <- (truncate_IZR (Z.of_nat draws)). apply truncate_mono. rewrite <- INR_IZR_INZ. destruct (B _ _ I1) as (w & Hw & ->). apply (C w Hw).
    + destruct (B _ _ I1) as (w & Hw & E). exists w. split; [exact Hw|]. rewrite <- E. unfold truncate. destruct (base_Int_part (np_min (map effective_draws markets))). lra.
    + destruct (B _ _ I2) as (w & Hw & E). exists w. split; [exact Hw|]. rewrite <- E. unfold truncate. destruct (base_Int_part (np_min (map effective_draws_for_variance markets))). lra.
    + destruct (B _ _ I3) as (w & Hw & E). exists w. split; [exact Hw|]. rewrite <- E. unfold truncate. destruct (base_Int_part (np_min (map effective_draws_for_skewness markets))). lra.
    + intros w Hw. assert (T : forall x, IZR (truncate x) <= x) by (intro x; unfold truncate; apply base_Int_part).
      split; [eapply Rle_trans; [apply T|apply M1, in_map, Hw]|]. split; [eapply Rle_trans; [apply T|apply M2, in_map, Hw]|]. split; [eapply Rle_trans; [apply T|apply M3, in_map, Hw]|].
      split; [apply M4, in_map, Hw|apply M5, in_map, Hw].
    + destruct (B _ _ I4) as (w & Hw & E). exists w. auto.
    + destruct (B _ _ I5) as (w & Hw & E). exists w. auto.
Qed.

(* ---------- What numbers for variance and skewness mean ---------- *)

Lemma power_squares w k : power_sum k (map (fun x => x ^ 2) w) = power_sum (2 * k) w.
Proof. induction w as [|x w IH]; unfold power_sum in *; cbn [map fold_right]; [reflexivity|]. rewrite IH, <- pow_mult. reflexivity. Qed.
Lemma cube n (f : nat -> R) : sumn n f ^ 3 = sumn n (fun i => sumn n (fun j => sumn n (fun k => f i * f j * f k))).
Proof.
  replace (sumn n f ^ 3) with (sumn n f * (sumn n f * sumn n f)) by ring. rewrite <- sumn_scal_r. apply sumn_ext. intros i _.
  rewrite <- sumn_scal_r, <- sumn_scal. apply sumn_ext. intros j _. rewrite <- !sumn_scal. apply sumn_ext. intros k _. ring.
Qed.
Lemma third_of_mean n states q y mu t w : third_moments n states q y mu t -> sumn n w <> 0 ->
  expected states q (fun s => (sumn n (fun i => w i * y i s) / sumn n w - mu) ^ 3) = t * sumn n (fun i => w i ^ 3) / sumn n w ^ 3.
Proof.
  intros C W.
  assert (X : forall s, (sumn n (fun i => w i * y i s) / sumn n w - mu) ^ 3 = / sumn n w ^ 3 * sumn n (fun i => sumn n (fun j => sumn n (fun k => w i * w j * w k * ((y i s - mu) * (y j s - mu) * (y k s - mu)))))).
  { intro s. assert (D : sumn n (fun i => w i * (y i s - mu)) = sumn n (fun i => w i * y i s) - mu * sumn n w).
    { rewrite (sumn_ext n _ (fun i => w i * y i s - mu * w i)) by (intros; ring). rewrite sumn_minus, sumn_scal. reflexivity. }
    assert (Q : sumn n (fun i => sumn n (fun j => sumn n (fun k => w i * w j * w k * ((y i s - mu) * (y j s - mu) * (y k s - mu))))) = sumn n (fun i => w i * (y i s - mu)) ^ 3).
    { rewrite cube. apply sumn_ext. intros i _. apply sumn_ext. intros j _. apply sumn_ext. intros k _. ring. }
    rewrite Q, D. field. exact W. }
  unfold expected. rewrite (sumn_ext states _ (fun s => / sumn n w ^ 3 * sumn n (fun i => sumn n (fun j => sumn n (fun k => w i * w j * w k * (q s * ((y i s - mu) * (y j s - mu) * (y k s - mu)))))))).
  2: { intros s _. rewrite X. rewrite <- Rmult_assoc, (Rmult_comm (q s)), Rmult_assoc. f_equal. rewrite <- sumn_scal. apply sumn_ext. intros i _. rewrite <- sumn_scal. apply sumn_ext. intros j _. rewrite <- sumn_scal. apply sumn_ext. intros k _. ring. }
  rewrite sumn_scal. rewrite sumn_swap. match goal with |- _ * ?s = _ => replace s with (sumn n (fun i => w i ^ 3 * t)) end.
  - rewrite sumn_scal_r. field. exact W.
  - symmetry. apply sumn_ext. intros i Hi. rewrite sumn_swap. transitivity (sumn n (fun j => sumn n (fun k => w i * w j * w k * (if (Nat.eqb i j && Nat.eqb j k)%bool then t else 0)))).
    + apply sumn_ext. intros j Hj. rewrite sumn_swap. apply sumn_ext. intros k Hk. rewrite sumn_scal. f_equal. exact (C i j k Hi Hj Hk).
    + rewrite (sumn_single n i); [|exact Hi|].
      * rewrite (sumn_single n i); [rewrite Nat.eqb_refl; cbn [andb]; ring|exact Hi|]. intros k _ Ne. rewrite Nat.eqb_refl, (proj2 (Nat.eqb_neq i k)) by congruence. cbn [andb]. ring.
      * intros j _ Ne. rewrite (proj2 (Nat.eqb_neq i j)) by congruence. cbn [andb]. rewrite (sumn_ext n _ (fun _ => 0 * 0)) by (intros; ring). rewrite sumn_scal. ring.
Qed.
