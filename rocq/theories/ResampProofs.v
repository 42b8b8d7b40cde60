(** Lemmas about resampling and simulation covariances. *)
Set Warnings "-notation-overridden,-ambiguous-paths".
From mathcomp Require Import all_ssreflect all_algebra.
From Coq Require Import Ring Field.
From Verif Require Import StatsModel StatsSpec StatsProofs ResampModel ResampSpec.
Set Implicit Arguments.
Unset Strict Implicit.
Unset Printing Implicit Defensive.
Import Order.TTheory GRing.Theory Num.Theory.
Local Open Scope ring_scope.

(** Identities in any field, for arithmetic that is tedious without a decision procedure. *)
Section Identities.
  Variables (T : Type) (z o : T) (add mul sub div : T -> T -> T) (opp inv : T -> T).
  Hypothesis H : field_theory z o add mul sub opp div inv eq.
  Add Field identities_field : H.
  Notation "x + y" := (add x y). Notation "x * y" := (mul x y). Notation "x - y" := (add x (opp y)).
  Lemma identity_product x y c d X Y : (x - (c + X)) * (y - (d + Y)) = (x - c) * (y - d) - (x - c) * Y - X * (y - d) + X * Y.
  Proof. ring. Qed.
  Lemma identity_total S X Y n i : i * n = o -> S - X * (i * Y) - (i * X) * Y + (i * X) * (i * Y) * n = S - i * (X * Y).
  Proof.
    intros E. transitivity (S - X * (i * Y) - i * X * Y + (i * n) * (i * (X * Y))); [ring|]. rewrite E. ring.
  Qed.
  Lemma identity_pair a b c d : (a - b) * (c - d) = a * c - a * d - b * c + b * d.
  Proof. ring. Qed.
  Lemma identity_sum n A X Y t : t = o + o -> n * A - X * Y - X * Y + n * A = t * (n * A - X * Y).
  Proof. intros ->. ring. Qed.
  Lemma identity_scale r i n t h A B : i * n = o -> h * t = o -> r * (A - i * B) = h * (i * r * (t * (n * A - B))).
  Proof.
    intros E1 E2. transitivity ((h * t) * (r * ((i * n) * A - i * B))); [rewrite E1 E2; ring|ring].
  Qed.
  Lemma identity_cov n i r C : i * n = o -> r * (n * C - i * (n * C)) = r * (n - o) * C.
  Proof. intros E. transitivity (r * (n * C - (i * n) * C)); [ring|]. rewrite E. ring. Qed.
End Identities.

Lemma real_field (F : realFieldType) : @field_theory F 0 1 +%R *%R (fun a b => a - b) -%R (fun a b => a / b) (@GRing.inv _) eq.
Proof.
  split; [|exact/eqP/oner_neq0|by []|by move=> x /eqP H; rewrite mulVf].
  split=> //; [exact: add0r|exact: addrC|exact: addrA|exact: mul1r|exact: mulrC|exact: mulrA|exact: mulrDl|exact: subrr].
Qed.

Section Loop.
  Variables (A G : Type) (resample : nat -> resampled A) (valid : A -> bool) (moments : A -> G).
  Lemma loop_from (a : nat -> A) k m : forall n,
    (forall i, (k <= i < k + n)%N -> resample i = Resampled (a i) /\ valid (a i)) ->
    loop resample valid moments (n + m) [seq moments (a i) | i <- iota 0 k]
    = loop resample valid moments m [seq moments (a i) | i <- iota 0 (k + n)].
  Proof.
    move=> n. elim: n k => [|n IH] k H; first by rewrite addn0.
    rewrite addSn /= size_map size_iota.
    have [|-> ->] := H k; first by rewrite leqnn /= -addSnnS leq_addr.
    have -> : rcons [seq moments (a i) | i <- iota 0 k] (moments (a k)) = [seq moments (a i) | i <- iota 0 k.+1].
      by rewrite -map_rcons -addn1 iotaD /= cats1 add0n.
    rewrite IH; first by rewrite addSnnS.
    move=> i /andP[Hi Hk]. apply: H. rewrite (ltnW Hi) /=. by rewrite -addSnnS.
  Qed.

  Lemma loop_stops (a : nat -> A) n m :
    (forall i, (i < n)%N -> resample i = Resampled (a i) /\ valid (a i)) -> resample n = Stop ->
    loop resample valid moments (n + m.+1) [::] = Some (if (n < 2)%N then TooFew else Samples [seq moments (a i) | i <- iota 0 n]).
  Proof.
    move=> H S. rewrite (@loop_from a 0 m.+1 n) //= add0n size_map size_iota S. by [].
  Qed.
  Lemma loop_fails (a : nat -> A) n m :
    (forall i, (i < n)%N -> resample i = Resampled (a i) /\ valid (a i)) ->
    resample n = Raises \/ (exists b, resample n = Resampled b /\ valid b = false) ->
    loop resample valid moments (n + m.+1) [::] = Some RuntimeError.
  Proof.
    move=> H S. rewrite (@loop_from a 0 m.+1 n) //= add0n size_map size_iota.
    by case: S => [->|[b [-> ->]]].
  Qed.
End Loop.

Section Covariances.
  Context {F : realFieldType}.
  Implicit Types (R M : nat).

  Lemma centered_sum R (x y : 'I_R -> F) c d : (0 < R)%N ->
    \sum_r (x r - R%:R^-1 * (\sum_s x s)) * (y r - R%:R^-1 * (\sum_s y s))
    = \sum_r (x r - c) * (y r - d) - R%:R^-1 * (\sum_r \sum_s (x r - c) * (y s - d)).
  Proof.
    move=> HR. have R0 : R%:R != 0 :> F by rewrite pnatr_eq0 -lt0n.
    have Ex : R%:R^-1 * (\sum_s x s) = c + R%:R^-1 * (\sum_s (x s - c)).
      rewrite sumrB sumr_const card_ord -[c *+ R]mulr_natr mulrBr [R%:R^-1 * (c * _)]mulrCA mulVf // mulr1. by rewrite addrCA subrr addr0.
    have Ey : R%:R^-1 * (\sum_s y s) = d + R%:R^-1 * (\sum_s (y s - d)).
      rewrite sumrB sumr_const card_ord -[d *+ R]mulr_natr mulrBr [R%:R^-1 * (d * _)]mulrCA mulVf // mulr1. by rewrite addrCA subrr addr0.
    rewrite Ex Ey. set X := \sum_s (x s - c). set Y := \sum_s (y s - d).
    have -> : \sum_r \sum_s (x r - c) * (y s - d) = X * Y.
      rewrite /X /Y mulr_suml. apply: eq_bigr => r _. by rewrite mulr_sumr.
    transitivity (\sum_r ((x r - c) * (y r - d) - (x r - c) * (R%:R^-1 * Y) - R%:R^-1 * X * (y r - d) + R%:R^-1 * X * (R%:R^-1 * Y))).
      apply: eq_bigr => r _. exact: (identity_product (real_field F)).
    rewrite big_split /= sumrB sumrB -mulr_suml -mulr_sumr -/X -/Y sumr_const card_ord -[_ * _ *+ R]mulr_natr.
    apply: (identity_total (real_field F)). exact: mulVf.
  Qed.

  Lemma np_cov_entry R M (g : 'M[F]_(R, M)) i j :
    np_cov g i j = (R.-1)%:R^-1 * \sum_r (g r i - R%:R^-1 * (\sum_s g s i)) * (g r j - R%:R^-1 * (\sum_s g s j)).
  Proof.
    rewrite /np_cov /outer mxE mxE. congr (_ * _). apply: eq_bigr => r _. by rewrite !mxE.
  Qed.

  Lemma np_cov_pairwise R M (g : 'M[F]_(R, M)) i j : (1 < R)%N ->
    np_cov g i j = pairwise_covariance (fun r => g r i) (fun r => g r j).
  Proof.
    move=> HR. have R0 : R%:R != 0 :> F by rewrite pnatr_eq0 -lt0n (ltn_trans _ HR).
    have R1 : (R.-1)%:R != 0 :> F by rewrite pnatr_eq0 -lt0n; case: R HR {g R0} => [|[|]].
    have T0 : 2%:R != 0 :> F by rewrite pnatr_eq0.
    rewrite np_cov_entry (@centered_sum R (g ^~ i) (g ^~ j) 0 0); last exact: ltn_trans HR.
    rewrite /pairwise_covariance natrM invfM.
    set X := fun r => g r i; set Y := fun r => g r j.
    have -> : \sum_r (g r i - 0) * (g r j - 0) = \sum_r X r * Y r by apply: eq_bigr => r _; rewrite !subr0.
    have -> : \sum_r \sum_s (g r i - 0) * (g s j - 0) = (\sum_r X r) * (\sum_s Y s).
      rewrite mulr_suml. apply: eq_bigr => r _. rewrite mulr_sumr. apply: eq_bigr => s _. by rewrite !subr0.
    have -> : \sum_r \sum_(s | s != r) (X r - X s) * (Y r - Y s)
       = 2%:R * (R%:R * (\sum_r X r * Y r) - (\sum_r X r) * (\sum_s Y s)).
      transitivity (\sum_r \sum_s (X r - X s) * (Y r - Y s)).
        apply: eq_bigr => r _. rewrite [RHS](bigD1 r) //= subrr mul0r add0r. by [].
      transitivity (\sum_r \sum_s (X r * Y r - X r * Y s - X s * Y r + X s * Y s)).
        apply: eq_bigr => r _. apply: eq_bigr => s _. exact: (identity_pair (real_field F)).
      transitivity (\sum_r (R%:R * (X r * Y r) - X r * (\sum_s Y s) - (\sum_s X s) * Y r + \sum_s X s * Y s)).
        apply: eq_bigr => r _. rewrite big_split /= sumrB sumrB sumr_const card_ord -mulr_sumr -mulr_suml. by rewrite -[_ * _ *+ R]mulr_natl.
      rewrite big_split /= sumrB sumrB sumr_const card_ord -[\sum_(i < R) R%:R * _]mulr_sumr -mulr_suml -mulr_sumr.
      rewrite -[(\sum_s X s * Y s) *+ R]mulr_natl. exact: (identity_sum (real_field F)).
    apply: (identity_scale (real_field F)); exact: mulVf.
  Qed.

  (** Expectations are linear. *)
  Section Expectation.
    Variables (Omega : finType) (p : Omega -> F).
    Notation E := (expectation p).
    Lemma expect_ext f f' : f =1 f' -> E f = E f'.
    Proof. move=> H. apply: eq_bigr => w _. by rewrite H. Qed.
    Lemma expect_scal a f : E (fun w => a * f w) = a * E f.
    Proof. rewrite /expectation mulr_sumr. apply: eq_bigr => w _. by rewrite mulrCA. Qed.
    Lemma expect_sub f f' : E (fun w => f w - f' w) = E f - E f'.
    Proof. rewrite /expectation -sumrB. apply: eq_bigr => w _. by rewrite mulrBr. Qed.
    Lemma expect_sum (I : finType) (f : I -> Omega -> F) : E (fun w => \sum_i f i w) = \sum_i E (f i).
    Proof. rewrite /expectation exchange_big. apply: eq_bigr => w _. by rewrite mulr_sumr. Qed.

    Lemma np_cov_unbiased R M (g : Omega -> 'I_R -> 'I_M -> F) mean C : (1 < R)%N -> uncorrelated p g mean C ->
      forall i j, E (fun w => np_cov (\matrix_(r, i) g w r i) i j) = C i j.
    Proof.
      move=> HR [_ HS HD] i j. have R0 : R%:R != 0 :> F by rewrite pnatr_eq0 -lt0n (ltn_trans _ HR).
      have R1 : (R.-1)%:R != 0 :> F by rewrite pnatr_eq0 -lt0n; case: R HR {g HS HD R0} => [|[|]].
      have Pos : (0 < R)%N by exact: ltn_trans HR.
      have Eq w : np_cov (\matrix_(r, i) g w r i) i j
         = (R.-1)%:R^-1 * ((\sum_r (g w r i - mean i) * (g w r j - mean j))
                           - R%:R^-1 * (\sum_r \sum_s (g w r i - mean i) * (g w s j - mean j))).
        rewrite np_cov_entry -(@centered_sum R (fun r => g w r i) (fun r => g w r j) (mean i) (mean j)) //. congr (_ * _).
        apply: eq_bigr => r _. rewrite !mxE.
        congr ((_ - _ * _) * (_ - _ * _)); apply: eq_bigr => s _; by rewrite mxE.
      rewrite (expect_ext Eq) expect_scal expect_sub expect_scal !expect_sum.
      have -> : \sum_r E (fun w => (g w r i - mean i) * (g w r j - mean j)) = R%:R * C i j.
        rewrite (eq_bigr (fun=> C i j)) => [|r _]; last exact: HS. by rewrite sumr_const card_ord mulr_natl.
      have -> : \sum_r E (fun w => \sum_s (g w r i - mean i) * (g w s j - mean j)) = R%:R * C i j.
        rewrite (eq_bigr (fun=> C i j)) => [|r _]; first by rewrite sumr_const card_ord mulr_natl.
        rewrite expect_sum (bigD1 r) //= HS big1 ?addr0 // => s Hs. rewrite eq_sym in Hs. exact: HD.
      rewrite (@identity_cov _ _ _ _ _ _ _ _ _ (real_field F)) ?mulVf //.
      have -> : R%:R - 1 = (R.-1)%:R :> F by rewrite -{1}(prednK Pos) -addn1 natrD addrK.
      by rewrite mulVf // mul1r.
    Qed.
  End Expectation.

  Lemma np_cov_symmetric R M (g : 'M[F]_(R, M)) : symmetric (np_cov g).
  Proof. by rewrite /symmetric /np_cov /outer linearZ /= trmx_mul trmxK. Qed.
  Lemma np_cov_psd R M (g : 'M[F]_(R, M)) : positive_semidefinite (np_cov g).
  Proof. apply: scaled_psd; [by rewrite invr_ge0 ler0n|exact: outer_psd]. Qed.

  Lemma np_cov_zero R M (g : 'M[F]_(R, M)) : (1 < R)%N -> np_cov g = 0 <-> (forall r s i, g r i = g s i).
  Proof.
    move=> HR. have R0 : R%:R != 0 :> F by rewrite pnatr_eq0 -lt0n (ltn_trans _ HR).
    have Pos : (0 < R)%N by exact: ltn_trans HR.
    have R1 : (R.-1)%:R != 0 :> F by rewrite pnatr_eq0 -lt0n; case: R HR {g R0 Pos} => [|[|]].
    split=> [H r s i|H].
    - have : np_cov g i i = 0 by rewrite H mxE.
      rewrite np_cov_entry => /eqP. rewrite mulf_eq0 invr_eq0 (negbTE R1) /= psumr_eq0 => [/allP Z|r' _]; last by rewrite -expr2 sqr_ge0.
      have Zr t : g t i = R%:R^-1 * (\sum_s g s i).
        have := Z t (mem_index_enum t). by rewrite /= -expr2 sqrf_eq0 subr_eq0 => /eqP.
      by rewrite (Zr r) -(Zr s).
    - apply/matrixP => i j. rewrite np_cov_entry mxE big1 ?mulr0 // => r _.
      have -> : R%:R^-1 * (\sum_s g s i) = g r i.
        rewrite (eq_bigr (fun=> g r i)) => [|s _]; last exact: H. by rewrite sumr_const card_ord -[g r i *+ R]mulr_natl mulKf.
      by rewrite subrr mul0r.
  Qed.

  Lemma compute_S_symmetric M MM N (A : 'M[F]_M) (B : 'M[F]_MM) C : symmetric A -> symmetric B -> symmetric C ->
    symmetric (compute_S N A B C).
  Proof.
    rewrite /symmetric /compute_S => HA HB HC. by rewrite linearD /= tr_block_mx !linear0 linearZ /= HA HB HC.
  Qed.
  Lemma compute_S_psd M MM N (A : 'M[F]_M) (B : 'M[F]_MM) C :
    positive_semidefinite A -> positive_semidefinite B -> positive_semidefinite C ->
    positive_semidefinite (compute_S N A B C).
  Proof.
    move=> HA HB HC x. rewrite /quadratic /compute_S mulmxDr mulmxDl mxE.
    apply: addr_ge0; last exact: HC.
    rewrite -(vsubmxK x) tr_col_mx mul_row_block !mulmx0 addr0 add0r mul_row_col mxE.
    apply: addr_ge0; first exact: HA. rewrite -scalemxAr -scalemxAl mxE. apply: mulr_ge0; [exact: ler0n|exact: HB].
  Qed.

  Lemma implied M MM N (A : 'M[F]_M) (B : 'M[F]_MM) C : (0 < N)%N ->
    N%:R^-1 *: compute_S N A B C = block_mx (N%:R^-1 *: A) 0 0 B + N%:R^-1 *: C.
  Proof.
    move=> HN. have N0 : N%:R != 0 :> F by rewrite pnatr_eq0 -lt0n.
    rewrite /compute_S scalerDr scale_block_mx !scaler0 scalerA mulVf // scale1r. by [].
  Qed.
End Covariances.
