(** C112: simulation error in moment covariances. *)
Set Warnings "-notation-overridden,-ambiguous-paths".
From mathcomp Require Import all_ssreflect all_algebra.
From Verif Require Import StatsModel StatsSpec ResampModel ResampSpec ResampProofs.
Set Implicit Arguments.
Unset Strict Implicit.
Unset Printing Implicit Defensive.
Import Order.TTheory GRing.Theory Num.Theory.
Local Open Scope ring_scope.

(** C112: agents are resampled with indices 0, 1, ... until the function returns None; fewer than two samples are an error, ... *)
Theorem C112_resampling : forall A G (resample : nat -> resampled A) (valid : A -> bool) (moments : A -> G) (a : nat -> A) n m,
  (forall i, (i < n)%N -> resample i = Resampled (a i) /\ valid (a i)) -> resample n = Stop ->
  loop resample valid moments (n + m.+1) [::] = Some (if (n < 2)%N then TooFew else Samples [seq moments (a i) | i <- iota 0 n]).
Proof. exact loop_stops. Qed.
Print Assumptions C112_resampling.

(** ... as are exceptions of the function and agents that are not valid. *)
Theorem C112_failures : forall A G (resample : nat -> resampled A) (valid : A -> bool) (moments : A -> G) (a : nat -> A) n m,
  (forall i, (i < n)%N -> resample i = Resampled (a i) /\ valid (a i)) ->
  resample n = Raises \/ (exists b, resample n = Resampled b /\ valid b = false) ->
  loop resample valid moments (n + m.+1) [::] = Some RuntimeError.
Proof. exact loop_fails. Qed.
Print Assumptions C112_failures.

(** C112: simulation covariances are half of the average over pairs of samples of products of differences. *)
Theorem C112_pairs : forall (F : realFieldType) R M (g : 'M[F]_(R, M)) i j, (1 < R)%N ->
  np_cov g i j = pairwise_covariance (fun r => g r i) (fun r => g r j).
Proof. exact @np_cov_pairwise. Qed.
Print Assumptions C112_pairs.

(** C112: they are unbiased if samples are not correlated and have the same means and covariances. *)
Theorem C112_unbiased : forall (F : realFieldType) (Omega : finType) (p : Omega -> F) R M (g : Omega -> 'I_R -> 'I_M -> F) mean covariances,
  (1 < R)%N -> uncorrelated p g mean covariances ->
  forall i j, expectation p (fun w => np_cov (\matrix_(r, i) g w r i) i j) = covariances i j.
Proof. exact @np_cov_unbiased. Qed.
Print Assumptions C112_unbiased.

(** C112: they vanish if and only if all samples agree. *)
Theorem C112_zero : forall (F : realFieldType) R M (g : 'M[F]_(R, M)), (1 < R)%N ->
  np_cov g = 0 <-> (forall r s i, g r i = g s i).
Proof. exact @np_cov_zero. Qed.
Print Assumptions C112_zero.

(** C112: moment covariances stay symmetric and positive semidefinite. *)
Theorem C112_covariance_matrix : forall (F : realFieldType) R M MM N (aggregate : 'M[F]_M) (micro : 'M[F]_MM) (g : 'M[F]_(R, M + MM)),
  symmetric aggregate -> positive_semidefinite aggregate -> symmetric micro -> positive_semidefinite micro ->
  symmetric (compute_S N aggregate micro (np_cov g)) /\ positive_semidefinite (compute_S N aggregate micro (np_cov g)).
Proof.
  move=> F R M MM N A B g SA PA SB PB. split.
  - apply: compute_S_symmetric => //. exact: np_cov_symmetric.
  - apply: compute_S_psd => //. exact: np_cov_psd.
Qed.
Print Assumptions C112_covariance_matrix.

(** C112: covariances of micro moments are those of their means, ... *)
Theorem C112_micro : forall (F : realFieldType) M MM N (aggregate : 'M[F]_M) (micro : 'M[F]_MM), (0 < N)%N ->
  covariances_of_means N (compute_S N aggregate micro (no_simulation _)) = block_mx (covariances_of_means N aggregate) 0 0 micro.
Proof. move=> F M MM N A B HN. by rewrite /covariances_of_means implied // /no_simulation scaler0 addr0. Qed.
Print Assumptions C112_micro.

(** ... but simulation covariances, which also are those of means, are not multiplied by N: what is added to covariances of
    means is too small by a factor of N whenever there is simulation error. *)
Theorem C112_scale_refuted : forall (F : realFieldType) R M MM N (aggregate : 'M[F]_M) (micro : 'M[F]_MM) (g : 'M[F]_(R, M + MM)),
  (1 < N)%N -> np_cov g != 0 ->
  covariances_of_means N (compute_S N aggregate micro (np_cov g))
  <> covariances_of_means N (compute_S N aggregate micro (no_simulation _)) + np_cov g.
Proof.
  move=> F R M MM N A B g HN G0. have HN0 : (0 < N)%N by exact: ltn_trans HN.
  rewrite /covariances_of_means !implied // /no_simulation scaler0 addr0 => /addrI /eqP.
  rewrite -subr_eq0 -[X in _ - X]scale1r -scalerBl scaler_eq0 (negbTE G0) orbF subr_eq0 invr_eq1 pnatr_eq1.
  by move/eqP => N1; rewrite N1 in HN.
Qed.
Print Assumptions C112_scale_refuted.

(** C112: what they are instead. *)
Theorem C112_scale : forall (F : realFieldType) R M MM N (aggregate : 'M[F]_M) (micro : 'M[F]_MM) (g : 'M[F]_(R, M + MM)),
  (0 < N)%N ->
  covariances_of_means N (compute_S N aggregate micro (np_cov g))
  = covariances_of_means N (compute_S N aggregate micro (no_simulation _)) + N%:R^-1 *: np_cov g.
Proof. move=> F R M MM N A B g HN. by rewrite /covariances_of_means !implied // /no_simulation scaler0 addr0. Qed.
Print Assumptions C112_scale.

(** Three draws of one moment that is zero or one with equal probability. *)
Example C112_applies :
  let p := fun _ : {ffun 'I_3 -> bool} => (8%:R^-1 : rat) in
  probabilities p /\ uncorrelated p (fun w r (_ : 'I_1) => (w r)%:R) (fun _ => 2%:R^-1) (fun _ _ => 4%:R^-1).
Proof.
  have card : #|{ffun 'I_3 -> bool}| = 8%N by rewrite card_ffun card_bool card_ord.
  have E (f : {ffun 'I_3 -> bool} -> rat) : expectation (fun _ => 8%:R^-1) f = 8%:R^-1 * \sum_w f w by rewrite /expectation mulr_sumr.
  have Pr (h : 'I_3 -> bool -> rat) : \sum_(w : {ffun 'I_3 -> bool}) \prod_r h r (w r) = \prod_r (h r true + h r false).
    rewrite -[LHS](bigA_distr_bigA h) /=. apply: eq_bigr => r _. by rewrite big_bool.
  have One r (u : bool -> rat) : \sum_(w : {ffun 'I_3 -> bool}) u (w r) = 4%:R * (u true + u false).
    have := Pr (fun q b => if q == r then u b else 1).
    have -> : \sum_(w : {ffun 'I_3 -> bool}) \prod_q (if q == r then u (w q) else 1) = \sum_(w : {ffun 'I_3 -> bool}) u (w r).
      apply: eq_bigr => w _. rewrite (bigD1 r) //= eqxx big1 ?mulr1 // => q Hq. by rewrite (negbTE Hq).
    move=> ->. rewrite (bigD1 r) //= eqxx mulrC. congr (_ * _).
    rewrite (eq_bigr (fun=> 2%:R)) => [|q Hq]; last by rewrite (negbTE Hq).
    rewrite prodr_const. have -> : #|[pred q : 'I_3 | q != r]| = 2%N by rewrite cardC1 card_ord. by [].
  have Two r s (u v : bool -> rat) : r != s ->
    \sum_(w : {ffun 'I_3 -> bool}) u (w r) * v (w s) = 2%:R * ((u true + u false) * (v true + v false)).
    move=> Hrs. have Hsr : s != r by rewrite eq_sym. have := Pr (fun q b => if q == r then u b else if q == s then v b else 1).
    have -> : \sum_(w : {ffun 'I_3 -> bool}) \prod_q (if q == r then u (w q) else if q == s then v (w q) else 1)
        = \sum_(w : {ffun 'I_3 -> bool}) u (w r) * v (w s).
      apply: eq_bigr => w _. rewrite (bigD1 r) //= eqxx (bigD1 s) //= eqxx.
      rewrite (negbTE Hsr) big1 ?mulr1 // => q /andP[Hq Hs]. by rewrite (negbTE Hq) (negbTE Hs).
    move=> ->. rewrite (bigD1 r) //= eqxx (bigD1 s) //= eqxx (negbTE Hsr).
    rewrite [RHS]mulrC -mulrA. congr (_ * (_ * _)).
    rewrite (eq_bigr (fun=> 2%:R)) => [|q /andP[Hq Hs]]; last by rewrite (negbTE Hq) (negbTE Hs).
    rewrite prodr_const. have -> : #|[pred q : 'I_3 | (q != r) && (q != s)]| = 1%N; last by [].
    have E2 : #|[pred q : 'I_3 | (q != r) && (q != s)]| = #|[set~ r] :\ s| by apply: eq_card => q; rewrite !inE andbC.
    rewrite E2. apply: succn_inj. rewrite -add1n. have := cardsD1 s [set~ r]. by rewrite cardsC1 card_ord !inE Hsr => <-.
  split; first split.
  - by move=> w; rewrite invr_ge0 ler0n.
  - by rewrite sumr_const card -[_ *+ 8]mulr_natl mulfV.
  - split=> [r _|r _ _|r s _ _ Hrs]; rewrite E.
    + rewrite (One r (fun b => b%:R)) /=. by apply/eqP.
    + rewrite (One r (fun b => (b%:R - 2%:R^-1) * (b%:R - 2%:R^-1))) /=. by apply/eqP.
    + rewrite (Two r s (fun b => b%:R - 2%:R^-1) (fun b => b%:R - 2%:R^-1) Hrs) /=. by apply/eqP.
Qed.

(** Two samples, 0 and 1, of one moment. *)
Example C112_scale_applies : np_cov (\matrix_(r < 2, i < 1 + 0) (r%:R : rat)) != 0.
Proof.
  apply/eqP => H. have := (@np_cov_zero _ 2 _ (\matrix_(r < 2, i < 1 + 0) (r%:R : rat)) (isT : (1 < 2)%N)).1 H ord0 (lift ord0 ord0) ord0.
  by rewrite !mxE.
Qed.
