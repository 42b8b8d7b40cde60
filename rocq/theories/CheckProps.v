(** Properties of checks of matrices: C100, C101 and C103. *)
Set Warnings "-notation-overridden,-ambiguous-paths".
From mathcomp Require Import all_ssreflect all_algebra.
From Verif Require Import CheckModel CheckSpec CheckProofs.
Set Implicit Arguments.
Unset Strict Implicit.
Unset Printing Implicit Defensive.
Import Order.TTheory GRing.Theory Num.Theory.
Local Open Scope ring_scope.

(* ---------- C100 ---------- *)

(** With positive tolerances there is a warning about every matrix with linearly dependent columns, unless it has only
    one row, for every QR decomposition and also if there was none. *)
Theorem C100_detects (F : realFieldType) (root : F -> F) atol rtol N K (x : 'M[F]_(N, K)) r :
  (forall a, 0 <= root a) -> 0 < atol -> 0 < rtol -> (1 < N)%N || (K <= N)%N -> dependent x ->
  (forall r', r = Some r' -> qr_decomposes x r') -> detect_collinearity root atol rtol x r <> [::].
Proof. move=> R; exact: dependent_is_detected. Qed.
Print Assumptions C100_detects.

(** A column that is not named is at least its tolerance away from all combinations of earlier columns, and the first
    column that is named is closer than that to some combination of these. *)
Theorem C100_distances (F : realFieldType) (root : F -> F) atol rtol N K (x r : 'M[F]_(N, K)) :
  (forall a, 0 <= root a) -> 0 < atol -> 0 < rtol -> (0 < K <= N)%N -> qr_decomposes x r ->
  let tol := fun j => atol + rtol * standard_deviation root x j in
  exists c : 'I_K -> bool,
    [/\ detect_collinearity root atol rtol x (Some r) = (if [exists j, c j] then [:: Issues c] else [::]),
        forall j, ~~ c j -> forall e, uses_earlier j e -> tol j ^+ 2 <= squares (col j x - x *m e) &
        forall j, c j -> (forall k : 'I_K, (k < j)%N -> ~~ c k) ->
          exists2 e, uses_earlier j e & squares (col j x - x *m e) < tol j ^+ 2].
Proof. move=> R; exact: detect_distances. Qed.
Print Assumptions C100_distances.

(** Columns (1, 0) twice. *)
Definition twice (F : realFieldType) : 'M[F]_2 := \matrix_(i, j) (i == 0)%:R.
Lemma twice_dependent (F : realFieldType) : dependent (twice F).
Proof.
  exists (\col_i if i == 0 then 1 else -1).
  - by apply/eqP => /matrixP/(_ 0 0); rewrite !mxE /=; apply/eqP; rewrite oner_eq0.
  - apply/matrixP => i j. rewrite !mxE !big_ord_recl big_ord0 !mxE /= mulr1 mulrN1 addr0. by rewrite subrr.
Qed.
Lemma twice_qr (F : realFieldType) : qr_decomposes (twice F) (twice F).
Proof.
  exists 1%:M; split; [by rewrite trmx1 mulmx1|by rewrite mul1mx|].
  by move=> [[|[|i]] Hi] [[|[|j]] Hj] //= _; rewrite mxE.
Qed.

(** The message says that checks are disabled by setting both tolerances to zero: setting one is enough. *)
Theorem C100_one_zero_refuted (F : realFieldType) (root : F -> F) atol rtol : (atol == 0) || (rtol == 0) ->
  dependent (twice F) /\ qr_decomposes (twice F) (twice F) /\ detect_collinearity root atol rtol (twice F) (Some (twice F)) = [::].
Proof.
  move=> Z; split; [exact: twice_dependent|split; first exact: twice_qr].
  apply: one_zero_tolerance. by case/orP: Z => /eqP->; rewrite lexx ?orbT.
Qed.
Print Assumptions C100_one_zero_refuted.

(** A column of zeros and the column (1, 0): the second one is named too, although it is no combination of others. *)
Definition zero_and_unit (F : realFieldType) : 'M[F]_2 := \matrix_(i, j) ((i == 0) && (j == 1))%:R.
Theorem C100_culprit_refuted (F : realFieldType) (root : F -> F) atol rtol : (forall a, 0 <= root a) -> 0 < atol -> 0 < rtol ->
  qr_decomposes (zero_and_unit F) (zero_and_unit F) /\ ~ combination_of_others (zero_and_unit F) 1 /\
  exists2 c, detect_collinearity root atol rtol (zero_and_unit F) (Some (zero_and_unit F)) = [:: Issues c] & c 1.
Proof.
  move=> R A T; split; [|split].
  - exists 1%:M; split; [by rewrite trmx1 mulmx1|by rewrite mul1mx|].
    by move=> [[|[|i]] Hi] [[|[|j]] Hj] //= _; rewrite mxE.
  - move=> [c C] /matrixP /(_ 0 0). rewrite !mxE !big_ord_recl big_ord0 !mxE /= mul0r add0r addr0.
    have -> : lift ord0 ord0 = 1 :> 'I_2 by exact/val_inj. rewrite C mulr0. by apply/eqP; rewrite oner_eq0.
  - pose c := fun j : 'I_2 => `|diagonal_element (zero_and_unit F) j| < atol + rtol * column_std root (zero_and_unit F) j.
    have C1 : c 1 by rewrite /c (diagonal_elementE _ (leqnn 2)) mxE /= normr0; exact: tolerance_gt0.
    exists c => //. rewrite detect_flags //. cbv zeta. rewrite -/c. by case: existsP => // N; exfalso; apply: N; exists 1.
Qed.
Print Assumptions C100_culprit_refuted.

(** Two columns with one row: nothing is said if the first element is not smaller than the absolute tolerance. *)
Theorem C100_single_row_refuted (F : realFieldType) (root : F -> F) atol rtol : root 0 = 0 -> 0 < atol <= 1 -> 0 < rtol ->
  let x : 'M[F]_(1, 2) := const_mx 1 in
  dependent x /\ qr_decomposes x x /\ detect_collinearity root atol rtol x (Some x) = [::].
Proof.
  move=> R0 /andP[A A1] T x; split; [|split].
  - exists (\col_i if i == 0 then 1 else -1).
    + by apply/eqP => /matrixP/(_ 0 0); rewrite !mxE /=; apply/eqP; rewrite oner_eq0.
    + apply/matrixP => i j. rewrite !mxE !big_ord_recl big_ord0 !mxE /= mulr1 mulrN1 addr0. by rewrite subrr.
  - exists 1%:M; split; [by rewrite trmx1 mulmx1|by rewrite mul1mx|]. by move=> [[|i] Hi] [j Hj].
  - rewrite /detect_collinearity /identify_collinearity /below_tolerance /= le_maxl leNgt A /= lt_minr A T /=.
    have Z : forall j, column_std root x j = 0.
    { move=> j. rewrite /column_std /column_mean !big_ord_recl !big_ord0 !mxE !addr0 !divr1 subrr expr0n. exact: R0. }
    case: existsP => // -[j]. rewrite Z mulr0 addr0 /diagonal_element.
    case: insubP => // i _ _. case: insubP => // k _ _. by rewrite mxE normr1 ltNge A1.
Qed.
Print Assumptions C100_single_row_refuted.

Example C100_applies : (forall a : rat, 0 <= `|a|) /\ (0 : rat) < 1 / 100%:R /\ (1 < 2)%N /\ dependent (twice [realFieldType of rat]) /\
  qr_decomposes (twice [realFieldType of rat]) (twice [realFieldType of rat]) /\ (0 < 2 <= 2)%N.
Proof. do !split=> //; [exact: twice_dependent|exact: twice_qr]. Qed.

(* ---------- C101 ---------- *)

(** Every PSD matrix is accepted, whatever the tolerances and the singular value decomposition. *)
Theorem C101_accepts (F : realFieldType) (atol rtol : F) n (x : 'M[F]_n) s v : 0 <= atol -> 0 <= rtol -> psd x -> svd_of x s v ->
  require (identify_psd (Some atol) (Some rtol) x (Some (s, v))) = Met.
Proof. exact: psd_accepted. Qed.
Print Assumptions C101_accepts.

(** What is accepted is within tolerances of a PSD matrix. *)
Theorem C101_within (F : realFieldType) (atol rtol : F) n (x : 'M[F]_n) s v : svd_of x s v ->
  require (identify_psd (Some atol) (Some rtol) x (Some (s, v))) = Met ->
  exists2 y, psd y & forall i j, `|y i j - x i j| <= atol + rtol * `|x i j|.
Proof. exact: accepted_psd. Qed.
Print Assumptions C101_within.

(** Without tolerances, exactly PSD matrices are accepted. *)
Theorem C101_exact (F : realFieldType) n (x : 'M[F]_n) s v : svd_of x s v ->
  (require (identify_psd (Some 0) (Some 0) x (Some (s, v))) = Met <-> psd x).
Proof. exact: zero_tolerances. Qed.
Print Assumptions C101_exact.

(** Both tolerances have to be infinite to switch off the check: an infinite absolute tolerance alone accepts every matrix
    that can be decomposed, and an infinite relative one alone rejects every matrix with a zero, PSD or not. *)
Theorem C101_infinite_tolerances (F : realFieldType) (tol : F) n (x : 'M[F]_n) svd :
  require (identify_psd None None x svd) = Met /\
  ((0 < n)%N -> require (identify_psd None (Some tol) x svd) = (if svd then Met else CannotCheck) /\
    (svd -> (require (identify_psd (Some tol) None x svd) = Met <-> forall i j, x i j != 0))).
Proof.
  split; first by rewrite /identify_psd andbF.
  move=> N; split.
  - rewrite /identify_psd N /=. case: svd => [[s v]|] //=. by case: forallP => // -[] i; apply/forallP.
  - case: svd => [[s v]|] //= _. rewrite /identify_psd N /=. case: forallP => E /=; split=> // H.
    + move=> i j. exact: (forallP (E i)).
    + case: E => i. apply/forallP => j. exact: H.
Qed.
Print Assumptions C101_infinite_tolerances.

(** A simulation accepts every correlation of structural errors between -1 and 1, and without tolerances no other if
    both variances are positive. *)
Theorem C101_correlation (F : realFieldType) (atol rtol vx vo c r : F) s v : 0 <= vx -> 0 <= vo -> r ^+ 2 = vx * vo ->
  svd_of (error_covariances vx vo c r) s v ->
  (0 <= atol -> 0 <= rtol -> -1 <= c <= 1 ->
   require (identify_psd (Some atol) (Some rtol) (error_covariances vx vo c r) (Some (s, v))) = Met) /\
  (0 < vx -> 0 < vo -> require (identify_psd (Some 0) (Some 0) (error_covariances vx vo c r) (Some (s, v))) = Met ->
   -1 <= c <= 1).
Proof.
  move=> X O R S; split.
  - move=> A T C. apply: psd_accepted => //. apply: covariances_psd => //. by rewrite -[c ^+ 2]real_normK ?num_real // expr_le1 ?normr_ge0 // ler_norml.
  - move=> Xp Op M. have C := psd_covariances Xp Op R (proj1 (zero_tolerances S) M).
    rewrite -ler_norml -(@expr_le1 _ 2) ?normr_ge0 // real_normK ?num_real //.
Qed.
Print Assumptions C101_correlation.

(** The matrix with diagonal (2, 1) is PSD; (1, -1) is not. *)
Definition diagonal2 (a b : rat) : 'M[rat]_2 := diag_mx (\row_j if j == 0 then a else b).
Example C101_applies : svd_of (diagonal2 2%:R 1) (\row_j if j == 0 then 2%:R else 1) 1%:M /\ psd (diagonal2 2%:R 1) /\
  svd_of (diagonal2 1 (-1)) (\row_j 1) 1%:M /\ ~ psd (diagonal2 1 (-1)) /\
  svd_of (error_covariances 2%:R 2%:R 0 2%:R : 'M[rat]_2) (\row_j 2%:R) 1%:M.
Proof.
  split; [|split; [|split; [|split]]].
  - exists 1%:M; split; rewrite ?trmx1 ?mulmx1 ?mul1mx //. by move=> i; rewrite mxE; case: eqP.
  - split; first exact: tr_diag_mx. move=> w; rewrite diag_form. apply: sumr_ge0 => i _. rewrite mulr_ge0 ?sqr_ge0 // mxE. by case: eqP.
  - exists (diagonal2 1 (-1)); split; rewrite ?trmx1 ?mulmx1 //; last first.
    + have -> : \row__ 1 = const_mx 1 :> 'rV[rat]_2 by apply/matrixP => i j; rewrite !mxE.
      by rewrite diag_const_mx mulmx1.
    + by move=> i; rewrite mxE.
    + rewrite tr_diag_mx mulmx_diag. apply/matrixP => i j. rewrite !mxE. by case: (i == 0); rewrite ?mulrNN ?mulr1 eq_sym.
  - move=> [_ P]. have := P (delta_mx 1 0). rewrite diag_form !big_ord_recl big_ord0 !mxE. by [].
  - exists 1%:M; split; rewrite ?trmx1 ?mulmx1 ?mul1mx //. by move=> i; rewrite mxE.
    apply/matrixP => i j. rewrite !mxE mul0r. by case: eqP => // ->; case: eqP.
Qed.

(* ---------- C103 ---------- *)

(** The check never rejects parameters for which there is a stationary distribution of structural errors. *)
Theorem C103_stationary (F : realFieldType) n (A S V : 'M[F]_n) l atol rtol : moduli_of A l -> pd S -> stationary_covariances A S V ->
  0 <= atol -> 0 <= rtol -> require (identify_stable (Some (atol, rtol)) n (Some l)) = Met.
Proof. exact: stationary_accepted. Qed.
Print Assumptions C103_stationary.

(** A modulus above one plus the absolute tolerance is rejected if the relative tolerance is zero. *)
Theorem C103_explosive (F : realFieldType) n (A : 'M[F]_n) l a b atol : moduli_of A l -> 0 <= atol -> eigenvalue_pair A a b ->
  (1 + atol) ^+ 2 < a ^+ 2 + b ^+ 2 -> require (identify_stable (Some (atol, 0)) n (Some l)) = NotMet.
Proof. exact: explosive_rejected. Qed.
Print Assumptions C103_explosive.

(** On or outside of the unit circle there is no stationary distribution. *)
Theorem C103_none (F : realFieldType) n (A S V : 'M[F]_n) a b : pd S -> eigenvalue_pair A a b -> 1 <= a ^+ 2 + b ^+ 2 ->
  ~ stationary_covariances A S V.
Proof. move=> P E L St. have := stationary_eigenvalues P St E. by rewrite ltNge L. Qed.
Print Assumptions C103_none.

(** Unit roots are accepted with all tolerances, although the message asks for a spectral radius below one, and no
    covariance matrix of initial errors is stationary. *)
Theorem C103_unit_root_refuted (F : realFieldType) n (atol rtol : F) : 0 <= atol -> 0 <= rtol ->
  moduli_of (1%:M : 'M[F]_n.+1) [:: 1] /\ require (identify_stable (Some (atol, rtol)) n.+1 (Some [:: 1])) = Met /\
  forall S V : 'M[F]_n.+1, pd S -> ~ stationary_covariances 1%:M S V.
Proof.
  move=> A T; split; [by apply: scalar_moduli; exact: ler01|split].
  - rewrite /require /identify_stable /=. have -> // : Num.max 1 0 <= 1 + Num.max atol (rtol * Num.max 1 (Num.max 1 0)) = true.
    rewrite (max_idPl ler01) ler_addl le_maxr A. by [].
  - move=> S V P St. have := stationary_eigenvalues P St (scalar_eigenvalue n 1). by rewrite expr1n expr0n addr0 ltxx.
Qed.
Print Assumptions C103_unit_root_refuted.

(** One half: the stationary variance is 4/3. *)
Example C103_applies :
  [/\ stationary_covariances ((1 / 2%:R)%:M : 'M[rat]_1) 1%:M (4%:R / 3%:R)%:M, pd (1%:M : 'M[rat]_1),
      moduli_of ((1 / 2%:R)%:M : 'M[rat]_1) [:: 1 / 2%:R],
      eigenvalue_pair (3%:R%:M : 'M[rat]_1) 3%:R 0 & (1 + 1) ^+ 2 < (3%:R : rat) ^+ 2 + 0 ^+ 2].
Proof.
  split.
  - split; last by apply/matrixP => i j; rewrite !ord1; do 9 rewrite ?mxE ?big_ord_recl ?big_ord0; apply/eqP; vm_compute.
    split; first exact: tr_scalar_mx. move=> w. rewrite /form mxE big_ord_recl big_ord0 addr0 mul_mx_scalar !mxE -mulrA.
    by rewrite mulr_ge0 // -expr2 sqr_ge0.
  - split; first exact: tr_scalar_mx. move=> w N. rewrite /form mulmx1 -squares_form lt0r squares_ge0 andbT.
    rewrite /squares big_ord_recl big_ord0 addr0 sqrf_eq0. apply: contra N => /eqP Z.
    apply/eqP/matrixP => i j. by rewrite !ord1 mxE.
  - by apply: scalar_moduli.
  - exact: scalar_eigenvalue.
  - by [].
Qed.
