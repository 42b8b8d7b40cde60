(** Data in which each row occurs several times: proofs. *)
From mathcomp Require Import all_ssreflect all_algebra.
From Verif Require Import StatsModel StatsProofs EfficModel NamesClusters CopiesSpec.
Set Implicit Arguments.
Unset Strict Implicit.
Unset Printing Implicit Defensive.
Import GRing.Theory Num.Theory.
Local Open Scope ring_scope.

Section Copies.
  Variables (F : realFieldType) (k N N' : nat) (original : 'I_N' -> 'I_N) (copy : 'I_N' -> 'I_k).
  Hypotheses (Hk : (0 < k)%N) (C : copies original copy).
  Local Notation cp := (copied original).

  Lemma sum_pairs (f : 'I_N -> 'I_k -> F) : \sum_n f (original n) (copy n) = \sum_n \sum_c f n c.
  Proof using C.
    rewrite pair_big /=. rewrite (reindex (fun n : 'I_N' => (original n, copy n))) //=. exact: onW_bij C.
  Qed.
  Lemma sum_copies (f : 'I_N -> F) : \sum_n f (original n) = k%:R * \sum_n f n.
  Proof using C.
    rewrite (sum_pairs (fun n _ => f n)). rewrite big_distrr /=. apply: eq_bigr => n _. by rewrite sumr_const card_ord mulr_natl.
  Qed.
  Lemma rows_copies : N' = (N * k)%N.
  Proof using C.
    have := bij_eq_card C. by rewrite card_prod !card_ord.
  Qed.
  Lemma k_neq0 : (k%:R : F) != 0.
  Proof using Hk. by rewrite pnatr_eq0 -lt0n. Qed.
  Lemma over_copies : (over N' : F) * k%:R = over N.
  Proof using Hk C. rewrite /over rows_copies natrM invfM -mulrA mulVf ?mulr1 //. exact: k_neq0. Qed.
  Lemma mean_copies (f : 'I_N -> F) : (over N' : F) * (\sum_n f (original n)) = (over N : F) * (\sum_n f n).
  Proof using Hk C. by rewrite sum_copies mulrA over_copies. Qed.

  Lemma column_mean_copies M (g : 'M[F]_(N, M)) : column_mean (cp g) = column_mean g.
  Proof using Hk C.
    apply/matrixP => i j. rewrite !mxE -(mean_copies (fun n => g n i)). congr (_ * _). apply: eq_bigr => n _. by rewrite mxE.
  Qed.
  Lemma centered_copies M (g : 'M[F]_(N, M)) : centered (cp g) = cp (centered g).
  Proof using Hk C. rewrite /centered column_mean_copies. apply/matrixP => n i. rewrite mxE [in RHS]mxE [in RHS]mxE. by rewrite mxE. Qed.
  Lemma error_covariance_copies (u1 u2 : 'cV[F]_N) : error_covariance (cp u1) (cp u2) = error_covariance u1 u2.
  Proof using Hk C.
    rewrite /error_covariance !column_mean_copies -(mean_copies (fun n => (u1 n 0 - column_mean u1 0 0) * (u2 n 0 - column_mean u2 0 0))).
    congr (_ * _). apply: eq_bigr => n _. by rewrite !mxE.
  Qed.
  Lemma product_copies K M (A : 'M[F]_(N, K)) (B : 'M[F]_(N, M)) : (cp A)^T *m cp B = k%:R *: (A^T *m B).
  Proof using C.
    apply/matrixP => i j. rewrite !mxE. rewrite -(sum_copies (fun n => A^T i n * B n j)). apply: eq_bigr => n _. by rewrite !mxE.
  Qed.
  Lemma scaled_product K M (A : 'M[F]_(N, K)) (B : 'M[F]_(N, M)) : over N' *: ((cp A)^T *m cp B) = over N *: (A^T *m B).
  Proof using Hk C. by rewrite product_copies scalerA over_copies. Qed.
  Lemma jacobian_copies M P (J : 'M[F]_(N, P)) (Z : 'M[F]_(N, M)) : jacobian_mean (cp J) (cp Z) = jacobian_mean J Z.
  Proof using Hk C.
    apply/matrixP => i p. rewrite !mxE -(mean_copies (fun n => J n p * Z n i)). congr (_ * _). apply: eq_bigr => n _. by rewrite !mxE.
  Qed.
  Lemma moments_copies E (q : 'I_E -> nat) (u : 'I_E -> 'cV[F]_N) (Z : forall e, 'M[F]_(N, q e)) :
    gmm_moments (fun e => cp (u e)) (fun e => cp (Z e)) = cp (gmm_moments u Z).
  Proof using.
    apply/matrixP => n i. by rewrite /gmm_moments !mxE.
  Qed.
  (** Clusters of copies. *)
  Lemma outer_copies M (g : 'M[F]_(N, M)) : outer (cp g) = k%:R *: outer g.
  Proof using C. exact: product_copies. Qed.
  Lemma same_clusters (T : eqType) (ids : 'I_N -> T) M (g : 'M[F]_(N, M)) :
    outer (cluster_sum (fun n => ids (original n)) (cp g)) = (k%:R * k%:R) *: outer (cluster_sum ids g).
  Proof using C.
    apply/matrixP => i j. rewrite outer_pairs [in RHS]mxE outer_pairs -mulrA -sum_copies big_distrr /=. apply: eq_bigr => n _.
    rewrite big_mkcond /= [in RHS]big_mkcond /= -(sum_copies (fun m => if ids m == ids (original n) then g (original n) i * g m j else 0)).
    apply: eq_bigr => m _. by rewrite !mxE.
  Qed.
  Lemma new_clusters (T : eqType) (ids : 'I_N -> T) M (g : 'M[F]_(N, M)) :
    outer (cluster_sum (fun n => (ids (original n), copy n)) (cp g)) = k%:R *: outer (cluster_sum ids g).
  Proof using C.
    apply/matrixP => i j. rewrite outer_pairs [in RHS]mxE outer_pairs.
    rewrite -(sum_copies (fun n => \sum_(m | ids m == ids n) g n i * g m j)). apply: eq_bigr => n _.
    rewrite big_mkcond /= [in RHS]big_mkcond /=.
    rewrite (eq_bigr (fun m => (fun a c => if (ids a == ids (original n)) && (c == copy n) then g (original n) i * g a j else 0) (original m) (copy m)));
      last by move=> m _; rewrite !mxE xpair_eqE.
    rewrite (sum_pairs (fun a c => if (ids a == ids (original n)) && (c == copy n) then g (original n) i * g a j else 0)).
    apply: eq_bigr => a _. rewrite (bigD1 (copy n)) //= eqxx andbT [X in _ + X]big1 ?addr0 // => c /negbTE ->. by rewrite andbF.
  Qed.
  (** Stacked equations. *)
  Lemma stacked_product R E K (q : 'I_E -> nat) (Z : forall e, 'M[F]_(R, q e)) (u : forall e : 'I_E, 'M[F]_(R, K)) :
    (block_diag Z)^T *m (\mxcol_e u e) = \mxcol_e ((Z e)^T *m u e).
  Proof using.
    rewrite /block_diag tr_mxblock mul_mxblock_mxrow. apply/eq_mxcolP => e.
    rewrite (bigD1 e) //= eqxx big1 ?addr0 // => f fe. by rewrite (negbTE fe) trmx0 mul0mx.
  Qed.
  Lemma stacked_copies E K (q : 'I_E -> nat) (Z : forall e, 'M[F]_(N, q e)) (u : forall e : 'I_E, 'M[F]_(N, K)) :
    (block_diag (fun e => cp (Z e)))^T *m (\mxcol_e cp (u e)) = k%:R *: ((block_diag Z)^T *m (\mxcol_e u e)).
  Proof using C.
    rewrite !stacked_product. apply/matrixP => i j. by rewrite [RHS]mxE [LHS]mxE [X in _ * X]mxE product_copies mxE.
  Qed.
End Copies.

(** Estimates when X'Z and Z'y are multiplied by a constant. *)
Section Scaled.
  Variable F : realFieldType.
  Lemma tr_scaled m n (B : 'M[F]_(m, n)) (c : F) : (c *: B)^T = c *: B^T.
  Proof. by apply/matrixP => i j; rewrite !mxE. Qed.
  Lemma scaled_parameters R R' K M (X : 'M[F]_(R, K)) (Z : 'M[F]_(R, M)) (W : 'M[F]_M) (A A' : 'M[F]_K) (X' : 'M[F]_(R', K)) (Z' : 'M[F]_(R', M)) y y' c :
    c != 0 -> Z'^T *m X' = c *: (Z^T *m X) -> Z'^T *m y' = c *: (Z^T *m y) ->
    A *m iv_information X Z W = 1%:M -> A' *m iv_information X' Z' W = 1%:M ->
    iv_parameters X' Z' W A' y' = iv_parameters X Z W A (y : 'cV[F]_R).
  Proof.
    move=> c0 EX Ey IA IA'.
    have EI : iv_information X' Z' W = (c * c) *: iv_information X Z W.
      by rewrite /iv_information EX tr_scaled -!scalemxAl -scalemxAr scalerA.
    have EA : A = (c * c) *: A'.
      have IA2 : ((c * c) *: A') *m iv_information X Z W = 1%:M by rewrite -scalemxAl scalemxAr -EI.
      by rewrite -[A]mulmx1 -(mulmx1C IA2) mulmxA IA mul1mx.
    have EX' : X'^T *m Z' = c *: (X^T *m Z).
      have -> : X'^T *m Z' = (Z'^T *m X')^T by rewrite trmx_mul trmxK.
      by rewrite EX tr_scaled trmx_mul trmxK.
    by rewrite /iv_parameters EX' Ey EA -!scalemxAl -!scalemxAr -!scalemxAl scalerA.
  Qed.
  Lemma scaled_covariances M P (W W' S S' : 'M[F]_M) (G : 'M[F]_(M, P)) (A A' : 'M[F]_P) (c d : F) (unadjusted : bool) :
    c != 0 -> W' = c *: W -> S' = d *: S -> (unadjusted -> d = c^-1) ->
    A *m gmm_information W G = 1%:M -> A' *m gmm_information W' G = 1%:M ->
    parameter_covariances W' S' G A' unadjusted = d *: parameter_covariances W S G A unadjusted.
  Proof.
    move=> c0 -> -> Hu IA IA'.
    have EI : gmm_information (c *: W) G = c *: gmm_information W G by rewrite /gmm_information -scalemxAr -scalemxAl.
    have EA : A = c *: A'.
      have IA2 : (c *: A') *m gmm_information W G = 1%:M by rewrite -scalemxAl scalemxAr -EI.
      by rewrite -[A]mulmx1 -(mulmx1C IA2) mulmxA IA mul1mx.
    have EA' : A' = c^-1 *: A by rewrite EA scalerA mulVf // scale1r.
    have S1 n (B : 'M[F]_n) e : symmetrised (e *: B) = e *: symmetrised B.
      by rewrite /symmetrised tr_scaled -scalerDr !scalerA mulrC.
    rewrite /parameter_covariances. case: unadjusted Hu => Hu; first by rewrite EA' S1 Hu.
    rewrite -S1 EA'; congr symmetrised.
    do ?[rewrite -scalemxAl | rewrite -scalemxAr]. rewrite !scalerA; congr (_ *: _).
    by rewrite mulVf // mul1r [d * c]mulrC mulrA mulVf // mul1r.
  Qed.
End Scaled.
