(** Proofs about absorption of fixed effects. *)
Set Warnings "-notation-overridden,-ambiguous-paths".
From mathcomp Require Import all_ssreflect all_algebra.
From Verif Require Import StatsModel StatsSpec StatsProofs SolveModel SolveSpec SolveProofs AbsorbModel AbsorbSpec.
Set Implicit Arguments.
Unset Strict Implicit.
Unset Printing Implicit Defensive.
Import Order.TTheory GRing.Theory Num.Theory.
Local Open Scope ring_scope.

Section Lemmas.
  Context {F : realFieldType}.

  Lemma mx_ext m n (A B : 'M[F]_(m, n)) : (forall y : 'cV[F]_n, A *m y = B *m y) -> A = B.
  Proof.
    move=> H. apply/matrixP => i j. move/matrixP/(_ i 0): (H (delta_mx j 0)). by rewrite -!colE !mxE.
  Qed.

  Section Residualizes.
    Variables (N E : nat) (A : 'M[F]_N) (D : 'M[F]_(N, E)).
    Hypothesis HA : residualizes A D.
    Lemma res_span : exists B : 'M[F]_(E, N), 1%:M - A = D *m B.
    Proof using HA.
      have [[B HB] _] := HA. exists B. apply: mx_ext => y. by rewrite mulmxBl mul1mx HB mulmxA.
    Qed.
    Lemma res_orth : D^T *m A = 0.
    Proof using HA. have [_ O] := HA. apply: mx_ext => y. by rewrite -mulmxA O mul0mx. Qed.
    Lemma res_sym : A^T = A.
    Proof using HA.
      have [B HB] := res_span.
      have P : (1%:M - A)^T *m A = 0 by rewrite HB trmx_mul -mulmxA res_orth mulmx0.
      have Q : A = A^T *m A. { move/eqP: P. by rewrite linearB /= trmx1 mulmxBl mul1mx subr_eq0 => /eqP. }
      by rewrite Q trmx_mul trmxK.
    Qed.
    Lemma res_idem : A *m A = A.
    Proof using HA.
      have [B HB] := res_span.
      have P : (1%:M - A)^T *m A = 0 by rewrite HB trmx_mul -mulmxA res_orth mulmx0.
      move/eqP: P. by rewrite linearB /= trmx1 res_sym mulmxBl mul1mx subr_eq0 => /eqP <-.
    Qed.
    Lemma res_zero : A *m D = 0.
    Proof using HA. by rewrite -[A]res_sym -[D]trmxK -trmx_mul res_orth trmx0. Qed.
    (** What is orthogonal to D is not changed. *)
    Lemma res_fixed C (r : 'M[F]_(N, C)) : D^T *m r = 0 -> A *m r = r.
    Proof using HA.
      move=> O. have [B HB] := res_span. have T : (1%:M - A) = (D *m B)^T by rewrite -HB linearB /= trmx1 res_sym.
      have : (1%:M - A) *m r = 0 by rewrite T trmx_mul -mulmxA O mulmx0.
      by rewrite mulmxBl mul1mx => /eqP; rewrite subr_eq0 => /eqP <-.
    Qed.
    Lemma res_removed C (r : 'M[F]_(N, C)) : exists c : 'M[F]_(E, C), r - A *m r = D *m c.
    Proof using HA. have [B HB] := res_span. exists (B *m r). by rewrite mulmxA -HB mulmxBl mul1mx. Qed.
  End Residualizes.

  Lemma subtract_twice (V : zmodType) (u s d x : V) : u - (x + d) = u - (s + d) - (x - s).
  Proof. rewrite opprB addrA opprD !addrA opprD addrA [u - s - d + s]addrAC subrK addrAC. by []. Qed.
  Lemma sumsq_zero n (e : 'cV[F]_n) : e^T *m e = 0 -> e = 0.
  Proof.
    move=> /matrixP/(_ 0 0) H. apply/matrixP => i j. rewrite ord1 [RHS]mxE.
    have Q : \sum_k e k 0 ^+ 2 = 0. { move: H. rewrite !mxE => H. rewrite -[RHS]H; apply: eq_bigr => k _. by rewrite mxE expr2. }
    have G : forall k : 'I_n, true -> 0 <= e k 0 ^+ 2 by move=> k _; exact: sqr_ge0.
    have := psumr_eq0P G Q (i:=i) isT. by move/eqP; rewrite expf_eq0 /= => /eqP.
  Qed.
  Lemma sumsq_mx_zero n C (e : 'M[F]_(n, C)) : e^T *m e = 0 -> e = 0.
  Proof.
    move=> H. apply/matrixP => i j. have /sumsq_zero/matrixP/(_ i 0) : (col j e)^T *m col j e = 0.
    { apply/matrixP => u v. rewrite !ord1. move/matrixP/(_ j j): H. rewrite !mxE => H. rewrite -[RHS]H; apply: eq_bigr => k _. by rewrite !mxE. }
    by rewrite !mxE.
  Qed.

  Section Dummies.
    Variables (N E K M : nat) (A : 'M[F]_N) (D : 'M[F]_(N, E)) (X : 'M[F]_(N, K)) (Z : 'M[F]_(N, M)) (y : 'cV[F]_N).
    Hypothesis HA : residualizes A D.
    Let AT := res_sym HA. Let AA := res_idem HA. Let AD := res_zero HA.

    Lemma absorbed_product C1 C2 (U : 'M[F]_(N, C1)) (V : 'M[F]_(N, C2)) : (A *m U)^T *m (A *m V) = U^T *m (A *m V).
    Proof using HA AT AA. by rewrite trmx_mul AT -!mulmxA (mulmxA A A) AA. Qed.
    Lemma orthogonal C (U : 'M[F]_(N, C)) : D^T *m (A *m U) = 0.
    Proof using HA. by rewrite mulmxA (res_orth HA) mul0mx. Qed.

    Lemma dummies_forward b : two_stage (A *m X) (A *m Z) (A *m y) b ->
      exists f, two_stage (row_mx X D) (row_mx Z D) y (col_mx b f) /\ y - row_mx X D *m col_mx b f = A *m y - A *m X *m b.
    Proof using HA AT AA.
      move=> [a L1 L2].
      have [c HC] := res_removed HA (X - Z *m a). have [g HG] := res_removed HA (y - Z *m a *m b).
      have R1 : X - (Z *m a + D *m c) = A *m (X - Z *m a) by rewrite -HC opprD addrA opprB addrCA subrr addr0.
      have R2 : y - ((Z *m a + D *m c) *m b + D *m (g - c *m b)) = A *m (y - Z *m a *m b).
      { rewrite mulmxDl mulmxBr mulmxA addrACA subrr addr0 -HG opprD addrA opprB addrCA subrr addr0. by []. }
      have FIT : row_mx Z D *m block_mx a 0 c 1%:M = row_mx (Z *m a + D *m c) D by rewrite mul_row_block mulmx0 add0r mulmx1.
      exists (g - c *m b). split.
      - exists (block_mx a 0 c 1%:M); rewrite /least_squares FIT.
        + rewrite opp_row_mx add_row_mx subrr R1 tr_row_mx mul_col_row !mulmx0 orthogonal.
          have -> : Z^T *m (A *m (X - Z *m a)) = 0.
          { move: L1. by rewrite /least_squares -(mulmxA A Z) -mulmxBr absorbed_product. }
          exact: block_mx0.
        + rewrite mul_row_col R2 tr_row_mx mul_col_mx orthogonal linearD /= [(D *m c)^T]trmx_mul mulmxDl -(mulmxA c^T) orthogonal mulmx0 addr0.
          have -> : (Z *m a)^T *m (A *m (y - Z *m a *m b)) = 0.
          { move: L2. by rewrite /least_squares -(mulmxA A Z a) -(mulmxA A _ b) -mulmxBr absorbed_product. }
          exact: col_mx0.
      - have -> : y - row_mx X D *m col_mx b (g - c *m b) =
          y - ((Z *m a + D *m c) *m b + D *m (g - c *m b)) - (X - (Z *m a + D *m c)) *m b.
        { rewrite mul_row_col [(X - _) *m b]mulmxBl. exact: subtract_twice. }
        rewrite R2 R1 !mulmxBr !mulmxBl -!mulmxA opprB addrA subrK. by [].
    Qed.
    Lemma dummies_backward b f : two_stage (row_mx X D) (row_mx Z D) y (col_mx b f) ->
      two_stage (A *m X) (A *m Z) (A *m y) b /\ y - row_mx X D *m col_mx b f = A *m y - A *m X *m b.
    Proof using HA AT AA AD.
      move=> [fit]. rewrite -[fit]submxK /least_squares.
      move: (ulsubmx fit) (ursubmx fit) (dlsubmx fit) (drsubmx fit) => a a2 c c2.
      rewrite mul_row_block opp_row_mx add_row_mx tr_row_mx mul_col_row -(@block_mx0 _ M E K E).
      move=> /eq_block_mx[Z1 Z2 D1 D2]. rewrite tr_row_mx mul_row_col mul_col_mx -(@col_mx0 _ K E) => /eq_col_mx[S1 S2].
      have E0 : D = Z *m a2 + D *m c2.
      { apply/eqP; rewrite -subr_eq0; apply/eqP. apply: sumsq_mx_zero.
        have -> : (D - (Z *m a2 + D *m c2))^T = (1%:M - c2)^T *m D^T - a2^T *m Z^T.
        { rewrite -!trmx_mul -linearB /=. congr (_^T). rewrite mulmxBr mulmx1 opprD addrA addrAC. by []. }
        by rewrite mulmxBl -!mulmxA Z2 D2 !mulmx0 subrr. }
      rewrite -E0 in S1 S2.
      have R1 : A *m X - A *m Z *m a = X - (Z *m a + D *m c).
      { rewrite -[RHS](res_fixed HA D1) mulmxBr mulmxDr !mulmxA AD mul0mx addr0. by []. }
      have R2 : A *m y - A *m Z *m a *m b = y - ((Z *m a + D *m c) *m b + D *m f).
      { rewrite -[RHS](res_fixed HA S2) mulmxBr mulmxDr mulmxDl mulmxDr !mulmxA AD !mul0mx !addr0. by []. }
      split.
      - exists a; rewrite /least_squares.
        + rewrite R1 trmx_mul AT -mulmxA (res_fixed HA D1). exact: Z1.
        + rewrite R2 -(mulmxA A Z) trmx_mul AT -mulmxA (res_fixed HA S2).
          move: S1. rewrite [(Z *m a + D *m c)^T]linearD /= [(D *m c)^T]trmx_mul mulmxDl -(mulmxA c^T) S2 mulmx0 addr0. by [].
      - have -> : y - row_mx X D *m col_mx b f = y - ((Z *m a + D *m c) *m b + D *m f) - (X - (Z *m a + D *m c)) *m b.
        { rewrite mul_row_col [(X - _) *m b]mulmxBl. exact: subtract_twice. }
        rewrite -R1 -R2 mulmxBl opprB addrA subrK. by [].
    Qed.

    Lemma absorbed_first_order W b : first_order (A *m X) (A *m Z) W (A *m y) b <->
      X^T *m (A *m Z) *m (W *m (Z^T *m (A *m (y - X *m b)))) = 0.
    Proof using HA AT AA.
      rewrite /first_order absorbed_product -!(mulmxA _ _ (A *m y - _)) -(mulmxA A X) -mulmxBr.
      by rewrite absorbed_product -(mulmxA _ W).
    Qed.
    (** Any weights for moments with instruments that were absorbed. *)
    Lemma dummies_gmm_forward W (V : 'M[F]_E) b : first_order (A *m X) (A *m Z) W (A *m y) b ->
      exists f, first_order (row_mx X D) (row_mx (A *m Z) D) (block_mx W 0 0 V) y (col_mx b f) /\
                y - row_mx X D *m col_mx b f = A *m y - A *m X *m b.
    Proof using HA AT AA.
      move=> L. have [f HF] := res_removed HA (y - X *m b). exists f.
      have R : y - row_mx X D *m col_mx b f = A *m (y - X *m b).
      { rewrite mul_row_col -HF opprD addrA opprB addrCA subrr addr0. by []. }
      split; last by rewrite R mulmxBr mulmxA.
      rewrite /first_order R !tr_row_mx -(mulmxA _ (col_mx _ _)) mul_col_mx orthogonal absorbed_product.
      rewrite -(mulmxA _ (block_mx _ _ _ _)) mul_block_col !mulmx0 mul0mx !addr0.
      rewrite mul_col_row mul_block_col mulmx0 addr0 [D^T *m (A *m Z) *m _]mulmxA !orthogonal mulmx0 addr0.
      rewrite (iffLR (absorbed_first_order _ _) L) !mul0mx. exact: col_mx0.
    Qed.
    Lemma dummies_gmm_backward W (V : 'M[F]_E) b f : (forall x, x != 0 -> 0 < quadratic V x) ->
      first_order (row_mx X D) (row_mx (A *m Z) D) (block_mx W 0 0 V) y (col_mx b f) ->
      first_order (A *m X) (A *m Z) W (A *m y) b /\ y - row_mx X D *m col_mx b f = A *m y - A *m X *m b.
    Proof using HA AT AA AD.
      move=> VP. rewrite /first_order. set r := y - _. rewrite !tr_row_mx -(mulmxA _ (col_mx _ _)) mul_col_mx.
      rewrite -(mulmxA _ (block_mx _ _ _ _)) mul_block_col !mul0mx addr0 add0r.
      rewrite mul_col_row mul_block_col [D^T *m (A *m Z)]orthogonal mul0mx add0r -(@col_mx0 _ K E) => /eq_col_mx[L1 L2].
      have D0 : D *m (V *m (D^T *m r)) = 0.
      { apply: sumsq_zero. rewrite trmx_mul -mulmxA (mulmxA D^T D) L2 mulmx0. by []. }
      have O : D^T *m r = 0.
      { apply/eqP; apply/negP => /negP /VP. rewrite /quadratic trmx_mul trmxK -!mulmxA D0 mulmx0 mxE ltxx. by []. }
      have R : r = A *m y - A *m X *m b.
      { rewrite -(res_fixed HA O) /r mulmxBr mul_row_col mulmxDr !mulmxA AD mul0mx addr0. by []. }
      split; last exact: R.
      apply/absorbed_first_order. move: L1. rewrite O !mulmx0 addr0 R -(mulmxA A X) -mulmxBr absorbed_product. by [].
    Qed.
    (** Derivatives of structural errors do not need to be absorbed if instruments are. *)
    Lemma absorbed_jacobian P (J : 'M[F]_(N, P)) : (A *m Z)^T *m (A *m J) = (A *m Z)^T *m J.
    Proof using HA AT AA. by rewrite absorbed_product trmx_mul AT mulmxA. Qed.
  End Dummies.

  Lemma residualizes_unique N E (A A' : 'M[F]_N) (D : 'M[F]_(N, E)) : residualizes A D -> residualizes A' D -> A = A'.
  Proof.
    move=> H H'. have P (U V : 'M[F]_N) : residualizes U D -> residualizes V D -> U = U *m V.
    { move=> HU HV. have [B HB] := res_span HV. apply/eqP. rewrite -subr_eq0 -{1}[U]mulmx1 -mulmxBr HB mulmxA (res_zero HU) mul0mx. by []. }
    rewrite (P _ _ H H') -[X in X *m _](res_sym H) -[X in _ *m X](res_sym H') -trmx_mul -(P _ _ H' H). exact: (res_sym H').
  Qed.
  Lemma residualizes_exists N E (D : 'M[F]_(N, E)) : exists A, residualizes A D.
  Proof.
    set B := row_base D^T. have RF : row_free B by exact: row_base_free.
    have [S HS] : exists S, B = S *m D^T. { apply/submxP. by rewrite eq_row_base. }
    have [T HT] : exists T, D^T = T *m B. { apply/submxP. by rewrite eq_row_base. }
    clearbody B. have U : B *m B^T \in unitmx.
    { rewrite -row_free_unit -kermx_eq0. apply/eqP; apply: (row_free_inj RF). rewrite mul0mx. apply: trmx_inj. rewrite trmx0.
      apply: sumsq_mx_zero. by rewrite trmxK trmx_mul mulmxA -[_ *m B *m B^T]mulmxA mulmx_ker mul0mx. }
    exists (1%:M - B^T *m invmx (B *m B^T) *m B). split.
    - exists (S^T *m invmx (B *m B^T) *m B) => y.
      rewrite mulmxBl mul1mx opprB addrCA subrr addr0 !mulmxA. congr (_ *m _ *m _ *m _). by rewrite {1}HS trmx_mul trmxK.
    - move=> y. rewrite mulmxA mulmxBr mulmx1 {2}HT -!mulmxA (mulmxA B B^T) (mulmxA (B *m B^T)) mulmxV // mul1mx -HT subrr mul0mx. by [].
  Qed.

  Section Groups.
    Variables (N G : nat) (group : 'I_N -> 'I_G).
    Lemma demeaning_residualizes : residualizes (demeaning F group) (indicators F group).
    Proof.
      split.
      - exists (\matrix_(g, m) ((group m == g)%:R / #|[pred k | group k == g]|%:R)) => y.
        rewrite mulmxA -{1}[y]mul1mx -mulmxBl. congr (_ *m _). apply/matrixP => n m.
        rewrite !mxE (bigD1 (group n)) //= big1 => [|g NE]; last by rewrite !mxE eq_sym (negbTE NE) mul0r.
        by rewrite !mxE eqxx mul1r addr0 opprB addrCA subrr addr0.
      - move=> y. apply/matrixP => g j. rewrite [RHS]mxE mxE.
        have E n : (indicators F group)^T g n * (demeaning F group *m y) n j =
          (group n == g)%:R * (y n j - (\sum_m (group m == g)%:R * y m j) / #|[pred k | group k == g]|%:R).
        { rewrite !mxE. case: eqP => [<-|_]; last by rewrite !mul0r. rewrite !mul1r.
          under eq_bigr => m _ do rewrite mxE mulrBl. rewrite sumrB. congr (_ - _).
          - rewrite (bigD1 n) //= eqxx mul1r big1 ?addr0 // => m NE. by rewrite eq_sym (negbTE NE) mul0r.
          - rewrite mulr_suml. apply: eq_bigr => m _. by rewrite mulrAC. }
        under eq_bigr => n _ do rewrite E mulrBr. rewrite sumrB -mulr_suml.
        have C : \sum_n (group n == g)%:R = #|[pred k | group k == g]|%:R :> F.
        { rewrite -sum1_card natr_sum [RHS]big_mkcond /=. apply: eq_bigr => n _. rewrite inE. by case: eqP. }
        rewrite C. case: (posnP #|[pred k | group k == g]|) => [Z|P].
        + rewrite Z mul0r subr0. apply: big1 => n _. have := card0_eq Z n. rewrite !inE => ->. by rewrite mul0r.
        + rewrite mulrCA divff ?mulr1 ?subrr // pnatr_eq0 -lt0n. by [].
    Qed.
    Lemma demeaned_column (y : 'cV[F]_N) n :
      (demeaning F group *m y) n 0 = y n 0 - (\sum_(m | group m == group n) y m 0) / #|[pred m | group m == group n]|%:R.
    Proof.
      rewrite mxE. under eq_bigr => m _ do rewrite mxE mulrBl. rewrite sumrB. congr (_ - _).
      - rewrite (bigD1 n) //= eqxx mul1r big1 ?addr0 // => m NE. by rewrite eq_sym (negbTE NE) mul0r.
      - rewrite mulr_suml [RHS]big_mkcond /=. apply: eq_bigr => m _. case: eqP => _; by rewrite ?mul1r ?mul0r // mulrC.
    Qed.
    Lemma indicators_column (f : 'cV[F]_G) n : (indicators F group *m f) n 0 = f (group n) 0.
    Proof.
      rewrite mxE (bigD1 (group n)) //= mxE eqxx mul1r big1 ?addr0 // => g NE. by rewrite mxE eq_sym (negbTE NE) mul0r.
    Qed.
  End Groups.

  Section Estimates.
    Variables (N E K L M : nat) (A : 'M[F]_N) (D : 'M[F]_(N, E)) (X : 'M[F]_(N, K)) (theta_X : 'M[F]_(N, L)) (theta_beta : 'cV[F]_L).
    Variables (delta : 'cV[F]_N) (Z : 'M[F]_(N, M)) (W : 'M[F]_M) (C : 'M[F]_K).
    Hypothesis HA : residualizes A D.
    Let beta := absorbed_beta A X theta_X theta_beta delta true Z W C.
    Let xi := absorbed_xi A X theta_X theta_beta delta true Z W C.
    Let fe := xi_fe A X theta_X theta_beta delta true Z W C.
    Lemma xi_orthogonal : D^T *m xi = 0.
    Proof using HA.
      rewrite /xi /absorbed_xi /iv_delta /absorbed_X /absorb -mulmxA -mulmxBr mulmxA (res_orth HA) mul0mx. by [].
    Qed.
    Lemma xi_fe_span : exists f, fe = D *m f.
    Proof using HA.
      have [c HC] := res_removed HA (delta - theta_X *m theta_beta - X *m beta). exists c. rewrite -HC.
      rewrite /fe /xi_fe /absorbed_xi -/beta mul_row_col /iv_delta /absorbed_X /absorb -mulmxA -mulmxBr.
      by rewrite [X *m beta + _]addrC [- (_ + _)]opprD addrA.
    Qed.
    Lemma xi_fe_sum : delta = X *m beta + theta_X *m theta_beta + fe + xi.
    Proof using.
      rewrite /fe /xi_fe -/beta -/xi mul_row_col -addrA subrK addrC subrK. by [].
    Qed.
    Hypothesis HC : inverse_of C (absorbed_information A X true Z W).
    Lemma absorbed_two_stage : (0 < N)%N -> W *m (N%:R^-1 *: ((A *m Z)^T *m (A *m Z))) = 1%:M ->
      forall b r, (exists2 f, two_stage (row_mx X D) (row_mx Z D) (delta - theta_X *m theta_beta) (col_mx b f) &
                              r = delta - theta_X *m theta_beta - row_mx X D *m col_mx b f) <-> b = beta /\ r = xi.
    Proof using HA HC.
      move=> N0 I b r. split.
      - move=> [f T RE]. have [T' RR] := dummies_backward HA T.
        move/(two_stage_first_order (A *m X) (A *m (delta - theta_X *m theta_beta)) b N0 I): T' => FO.
        have EB : b = beta by exact: (iv_unique HC FO). split=> //. by rewrite RE RR EB.
      - move=> [-> ->]. have FO : first_order (A *m X) (A *m Z) W (A *m (delta - theta_X *m theta_beta)) beta by exact: (iv_foc HC).
        move/(two_stage_first_order (A *m X) (A *m (delta - theta_X *m theta_beta)) beta N0 I): FO => T.
        have [f [T' R']] := dummies_forward HA T. by exists f.
    Qed.
    Lemma absorbed_gmm V : (forall x, x != 0 -> 0 < quadratic V x) ->
      forall b r, (exists2 f, first_order (row_mx X D) (row_mx (A *m Z) D) (block_mx W 0 0 V) (delta - theta_X *m theta_beta) (col_mx b f) &
                              r = delta - theta_X *m theta_beta - row_mx X D *m col_mx b f) <-> b = beta /\ r = xi.
    Proof using HA HC.
      move=> VP b r. split.
      - move=> [f T RE]. have [FO RR] := dummies_gmm_backward HA VP T.
        have EB : b = beta by exact: (iv_unique HC FO). split=> //. by rewrite RE RR EB.
      - move=> [-> ->]. have FO : first_order (A *m X) (A *m Z) W (A *m (delta - theta_X *m theta_beta)) beta by exact: (iv_foc HC).
        have [f [T' R']] := dummies_gmm_forward HA V FO. by exists f.
    Qed.
  End Estimates.

  Lemma slope_unique N (f : 'cV[F]_N -> F) x h s s' : slope f x h s -> slope f x h s' -> s = s'.
  Proof.
    move=> [c H] [c' H']. have P := H 1; have Q := H' 1. have P' := H (- 1); have Q' := H' (- 1).
    have E1 : s + c = s' + c'. { move: P. rewrite Q !mul1r !expr1n !mul1r -!addrA. by move/addrI. }
    have E2 : - s + c = - s' + c'. { move: P'. rewrite Q' !mulN1r sqrrN !expr1n !mul1r -!addrA. by move/addrI. }
    have T : s *+ 2 = s' *+ 2.
    { have A1 : s *+ 2 = (s + c) - (- s + c) by rewrite opprD opprK addrACA subrr addr0 mulr2n.
      have A2 : s' *+ 2 = (s' + c') - (- s' + c') by rewrite opprD opprK addrACA subrr addr0 mulr2n.
      by rewrite A1 A2 E1 E2. }
    apply/eqP. move/eqP: T. by rewrite eqr_muln2r.
  Qed.
  Section Gradient.
    Variables (N K L M : nat) (A : 'M[F]_N) (X : 'M[F]_(N, K)) (theta_X : 'M[F]_(N, L)) (theta_beta : 'cV[F]_L).
    Variables (delta : 'cV[F]_N) (add_exogenous : bool) (Z : 'M[F]_(N, M)) (W : 'M[F]_M) (C : 'M[F]_K).
    Let Z' := absorbed_Z A add_exogenous Z.
    Hypothesis AZ : Z'^T *m A = Z'^T.
    Hypothesis WS : symmetric W.
    Hypothesis HC : inverse_of C (absorbed_information A X add_exogenous Z W).
    Let xi d := absorbed_xi A X theta_X theta_beta d add_exogenous Z W C.
    Let b0 (h : 'cV[F]_N) := iv_parameters (A *m X) Z' W C (A *m h).
    Lemma xi_affine t h : xi (delta + t *: h) = xi delta + t *: (A *m h - A *m X *m b0 h).
    Proof using.
      rewrite /xi /absorbed_xi /absorbed_beta /iv_delta /absorb addrAC mulmxDr -scalemxAr /b0 /iv_parameters /absorbed_X /absorb -/Z'.
      rewrite !mulmxDr -!scalemxAr opprD scalerBr addrACA. by [].
    Qed.
    Lemma gradient_slope h :
      slope (fun d => absorbed_objective A X theta_X theta_beta d add_exogenous Z W C) delta h
            (absorbed_gradient A X theta_X theta_beta delta add_exogenous Z W C h 0 0).
    Proof using AZ WS HC.
      set g := absorbed_moments A X theta_X theta_beta delta add_exogenous Z W C.
      set dg := N%:R^-1 *: (Z'^T *m (A *m h - A *m X *m b0 h)).
      exists ((dg^T *m W *m dg) 0 0) => t.
      have -> : absorbed_objective A X theta_X theta_beta (delta + t *: h) add_exogenous Z W C =
        ((g + t *: dg)^T *m W *m (g + t *: dg)) 0 0.
      { rewrite /absorbed_objective /absorbed_moments -/Z' -/(xi _) xi_affine mulmxDr scalerDr -scalemxAr scalerA mulrC -scalerA. by []. }
      have FO : (A *m X)^T *m Z' *m (W *m g) = 0.
      { have := iv_foc HC (iv_delta A theta_X theta_beta delta). rewrite /first_order -!mulmxA => FO.
        rewrite /g /absorbed_moments -/Z' /absorbed_xi -!scalemxAr -mulmxA. by rewrite FO scaler0. }
      have S : dg^T *m W *m g = (N%:R^-1 *: (Z'^T *m h))^T *m W *m g.
      { rewrite -!mulmxA /dg mulmxBr scalerBr [(_ - _)^T]linearB /= mulmxBl (mulmxA Z'^T A) AZ.
        have -> : (N%:R^-1 *: (Z'^T *m (A *m X *m b0 h)))^T *m (W *m g) = 0; last by rewrite subr0.
        rewrite linearZ /= trmx_mul trmxK trmx_mul -scalemxAl -!mulmxA.
        have -> : (A *m X)^T *m (Z' *m (W *m g)) = 0 by rewrite mulmxA. by rewrite mulmx0 scaler0. }
      have T : g^T *m W *m dg = dg^T *m W *m g.
      { apply/matrixP => i j; rewrite !ord1. have -> : g^T *m W *m dg = (dg^T *m W *m g)^T by rewrite !trmx_mul trmxK WS mulmxA. by rewrite mxE. }
      have -> : (g + t *: dg)^T *m W *m (g + t *: dg) = g^T *m W *m g + t *: (g^T *m W *m dg) + (t *: (dg^T *m W *m g) + t *: (t *: (dg^T *m W *m dg))).
      { clearbody g dg. rewrite [(g + _)^T]linearD /= [(t *: dg)^T]linearZ /= !mulmxDl !mulmxDr -!scalemxAl -!scalemxAr. by []. }
      rewrite T S.
      rewrite /absorbed_gradient -/Z' -/g /absorbed_objective -/g.
      move: (_ *m W *m g) (g^T *m W *m g) (dg^T *m W *m dg) => u v w. rewrite ![in LHS]mxE !mxE.
      rewrite -!addrA. congr (_ + _). rewrite addrA expr2 -mulrA. congr (_ + _). by rewrite mulr2n mulrDl !mul1r mulrDr.
    Qed.
  End Gradient.
End Lemmas.
