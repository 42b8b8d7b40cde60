(** Proofs about checks of matrices. *)
Set Warnings "-notation-overridden,-ambiguous-paths".
From mathcomp Require Import all_ssreflect all_algebra.
From Verif Require Import CheckModel CheckSpec.
Set Implicit Arguments.
Unset Strict Implicit.
Unset Printing Implicit Defensive.
Import Order.TTheory GRing.Theory Num.Theory.
Local Open Scope ring_scope.

(* ---------- Identities in a real field ---------- *)

Section Ring.
  Variable F : realFieldType.
  Definition cadd (a b : F) : F := a + b.
  Definition cmul (a b : F) : F := a * b.
  Definition copp (a : F) : F := - a.
  Definition czero : F := 0.
  Definition cone : F := 1.
  Lemma field_is_ring : ring_theory czero cone cadd cmul (fun a b => cadd a (copp b)) copp eq.
  Proof.
    rewrite /cadd /cmul /copp /czero /cone.
    by split=> //; [exact: add0r|exact: addrC|exact: addrA|exact: mul1r|exact: mulrC|exact: mulrA|exact: mulrDl|exact: subrr].
  Qed.
End Ring.
Ltac field_identity F :=
  rewrite ?expr2 ?mulr2n;
  repeat match goal with |- context [@fun_of_matrix ?T ?m ?n ?A ?i ?j] => move: (@fun_of_matrix T m n A i j) => ? end;
  repeat match goal with
  | |- context [@GRing.add ?S ?a ?b] => change (@GRing.add S a b) with (@cadd F a b)
  | |- context [@GRing.mul ?S ?a ?b] => change (@GRing.mul S a b) with (@cmul F a b)
  | |- context [@GRing.opp ?S ?a] => change (@GRing.opp S a) with (@copp F a)
  | |- context [@GRing.zero ?S] => change (@GRing.zero S) with (czero F)
  | |- context [@GRing.one ?S] => change (@GRing.one S) with (cone F)
  end; match goal with |- @eq _ ?a ?b => change (@eq (Num.RealField.sort F) a b) end; ring.

Section Lemmas.
  Context {F : realFieldType}.

  Lemma squares_form N (v : 'cV[F]_N) : squares v = (v^T *m v) 0 0.
  Proof. rewrite /squares mxE; apply: eq_bigr => i _; by rewrite mxE expr2. Qed.

  Lemma squares_orthogonal N (q : 'M[F]_N) (v : 'cV[F]_N) : q^T *m q = 1%:M -> squares (q *m v) = squares v.
  Proof. move=> O. by rewrite !squares_form trmx_mul -mulmxA (mulmxA q^T) O mul1mx. Qed.

  Lemma squares_ge0 N (v : 'cV[F]_N) : 0 <= squares v.
  Proof. apply: sumr_ge0 => i _; exact: sqr_ge0. Qed.

  (* ---------- Collinearity ---------- *)

  Lemma diagonal_elementE N K (r : 'M[F]_(N, K)) (H : (K <= N)%N) (j : 'I_K) :
    diagonal_element r j = r (widen_ord H j) j.
  Proof.
    rewrite /diagonal_element. case: insubP => [i _ Ei|]; last by rewrite (leq_trans (ltn_ord j) H).
    case: insubP => [k _ Ek|]; last by rewrite ltn_ord.
    by congr (r _ _); apply: val_inj; rewrite /= ?Ei ?Ek.
  Qed.

  Lemma qr_annihilates N K (x r : 'M[F]_(N, K)) c : qr_decomposes x r -> x *m c = 0 -> r *m (c : 'cV[F]_K) = 0.
  Proof.
    move=> [q [O E _]] Z. have: q^T *m (x *m c) = 0 by rewrite Z mulmx0.
    by rewrite E -mulmxA !mulmxA O mul1mx.
  Qed.

  Lemma last_nonzero K (c : 'cV[F]_K) : c != 0 -> exists2 j : 'I_K, c j 0 != 0 & forall k : 'I_K, (j < k)%N -> c k 0 = 0.
  Proof.
    move=> C. have [k0 K0] : exists k, c k 0 != 0.
    { apply/existsP; rewrite -[[exists _, _]]negbK; apply/negP => /existsPn Z; move/negP: C; apply.
      apply/eqP/matrixP => i j; rewrite ord1 mxE; move: (Z i); by rewrite negbK => /eqP. }
    case: (@arg_maxnP _ k0 (fun k => c k 0 != 0) (fun k => val k) K0) => j J M; exists j => // k Lt.
    apply/eqP/negPn/negP => Z. by move: (M k Z); rewrite /= leqNgt Lt.
  Qed.

  (** A dependent matrix has a diagonal element that is exactly zero. *)
  Lemma dependent_zero N K (x r : 'M[F]_(N, K)) : (K <= N)%N -> qr_decomposes x r -> dependent x ->
    exists j : 'I_K, diagonal_element r j = 0.
  Proof.
    move=> H Q [c C Z]. have A := qr_annihilates Q Z. have [j J L] := last_nonzero C. case: Q => q [_ _ U].
    exists j. rewrite (diagonal_elementE r H). move/matrixP: A => /(_ (widen_ord H j) 0); rewrite !mxE.
    rewrite (bigD1 j) //= big1 ?addr0 => [|k Kj].
      move/eqP; rewrite mulf_eq0 (negbTE J) orbF => /eqP //.
    case: (ltngtP k j) => [Lt|Lt|E]; [|by rewrite (L _ Lt) mulr0|by rewrite (val_inj E) eqxx in Kj].
    by rewrite U ?mul0r.
  Qed.

  (** The residual of a column after subtracting earlier ones. *)
  Lemma residual_rows N K (x r : 'M[F]_(N, K)) (j : 'I_K) c : qr_decomposes x r -> (K <= N)%N -> uses_earlier j c ->
    squares (col j x - x *m c) = \sum_(i : 'I_N | (i < j)%N) (r i j - (r *m c) i 0) ^+ 2 + diagonal_element r j ^+ 2.
  Proof.
    move=> [q [O E U]] H Ec.
    have -> : col j x - x *m c = q *m (col j r - r *m c).
    { by rewrite mulmxBr {1}E !colE !mulmxA E. }
    rewrite (squares_orthogonal _ O) /squares (bigID (fun i : 'I_N => (i < j)%N)) /=; congr (_ + _).
      by apply: eq_bigr => i _; rewrite !mxE.
    have Z : forall i : 'I_N, (j <= i)%N -> (r *m c) i 0 = 0.
    { move=> i Ji; rewrite mxE big1 // => k _. case: (leqP j k) => Kj; first by rewrite (Ec _ Kj) mulr0.
      by rewrite (U i k (leq_trans Kj Ji)) mul0r. }
    rewrite (bigD1 (widen_ord H j)) /=; last by rewrite ltnn.
    rewrite big1 ?addr0 => [|i /andP[Ij Ni]].
      have := Z (widen_ord H j) (leqnn _). rewrite (diagonal_elementE r H) !mxE => ->. by rewrite subr0.
    rewrite -leqNgt in Ij; rewrite !mxE. have -> : r i j = 0.
    { apply: U. rewrite ltn_neqAle Ij andbT. apply/eqP => V. move/eqP: Ni; apply. exact/val_inj. }
    rewrite sub0r. have := Z _ Ij. by rewrite mxE => ->; rewrite oppr0 expr0n.
  Qed.

  Lemma distance_ge N K (x r : 'M[F]_(N, K)) (j : 'I_K) c : qr_decomposes x r -> (K <= N)%N -> uses_earlier j c ->
    diagonal_element r j ^+ 2 <= squares (col j x - x *m c).
  Proof.
    move=> Q H Ec. rewrite (residual_rows Q H Ec) ler_addr. apply: sumr_ge0 => i _; exact: sqr_ge0.
  Qed.

  (** Coefficients that attain the distance, if earlier diagonal elements are not zero. *)
  Lemma distance_attained N K (x r : 'M[F]_(N, K)) (j : 'I_K) : qr_decomposes x r -> (K <= N)%N ->
    (forall k : 'I_K, (k < j)%N -> diagonal_element r k != 0) ->
    exists2 c, uses_earlier j c & squares (col j x - x *m c) = diagonal_element r j ^+ 2.
  Proof.
    move=> Q H D. have U : forall (i : 'I_N) (k : 'I_K), (k < i)%N -> r i k = 0 by case: Q => q [].
    pose B : 'M[F]_K := \matrix_(a, b) if (a < j)%N && (b < j)%N then r (widen_ord H a) b else (a == b)%:R.
    pose t : 'cV[F]_K := \col_a if (a < j)%N then r (widen_ord H a) j else 0.
    have BU : B \in unitmx.
    { rewrite unitmxE -det_tr det_trig.
      - rewrite unitfE; apply/prodf_neq0 => a _. rewrite !mxE andbb. case: ifP => Aj; last by rewrite eqxx oner_neq0.
        by rewrite -(diagonal_elementE r H); apply: D.
      - apply/is_trig_mxP => a b Ab. rewrite !mxE. case: ifP => [/andP[Bj Aj]|_]; first exact: U.
        by case: eqP => // E; rewrite E ltnn in Ab. }
    pose c := invmx B *m t. have Bc : B *m c = t by rewrite mulKVmx.
    have Ec : uses_earlier j c.
    { move=> k Jk. have := congr1 (fun m : 'cV[F]_K => m k 0) Bc. rewrite [X in _ = X -> _]mxE mxE ltnNge Jk /= => E. rewrite -[RHS]E.
      rewrite (bigD1 k) //= big1 ?addr0 => [|b Nb]; first by rewrite [B k k]mxE ltnNge Jk /= eqxx mul1r.
      by rewrite [B k b]mxE ltnNge Jk /= eq_sym (negbTE Nb) mul0r. }
    exists c => //. rewrite (residual_rows Q H Ec) big1 ?add0r // => i Ij.
    have [a Ea] : exists a : 'I_K, i = widen_ord H a.
    { exists (Ordinal (leq_trans Ij (ltnW (ltn_ord j)))). exact/val_inj. }
    have Aj : (a < j)%N by move: Ij; rewrite Ea.
    have -> : (r *m c) i 0 = r i j; last by rewrite subrr expr0n.
    have := congr1 (fun m : 'cV[F]_K => m a 0) Bc. rewrite [X in _ = X -> _]mxE Aj Ea => <-.
    rewrite !mxE; apply: eq_bigr => b _. rewrite [B a b]mxE Aj /=. case: ltnP => Bj //. by rewrite (Ec _ Bj) !mulr0.
  Qed.

  Variables (root : F -> F).
  Hypothesis root_ge0 : forall a, 0 <= root a.

  Lemma tolerance_gt0 atol rtol N K (x : 'M[F]_(N, K)) j : 0 < atol -> 0 < rtol -> 0 < atol + rtol * column_std root x j.
  Proof. move=> A T. apply: ltr_paddr => //. apply: mulr_ge0; [exact: ltW|exact: root_ge0]. Qed.

  (** With positive tolerances and no fewer rows than columns, what is said is about the columns below their tolerance. *)
  Lemma detect_flags atol rtol N K (x r : 'M[F]_(N, K)) : 0 < atol -> 0 < rtol -> (0 < K <= N)%N ->
    detect_collinearity root atol rtol x (Some r) =
      let c := fun j : 'I_K => `|diagonal_element r j| < atol + rtol * column_std root x j in
      if [exists j, c j] then [:: Issues c] else [::].
  Proof.
    move=> A T /andP[K0 KN]. rewrite /detect_collinearity /identify_collinearity /below_tolerance KN.
    rewrite le_maxl leNgt A /= lt_minr A T muln_gt0 K0 (leq_trans K0 KN) //=.
  Qed.

  Lemma column_stdE N K (x : 'M[F]_(N, K)) j : column_std root x j = standard_deviation root x j.
  Proof. by rewrite /column_std /standard_deviation /squares; congr (root (_ / _)); apply: eq_bigr => i _; rewrite !mxE. Qed.

  (** Columns that are not named, and the first one that is. *)
  Lemma detect_distances atol rtol N K (x r : 'M[F]_(N, K)) : 0 < atol -> 0 < rtol -> (0 < K <= N)%N -> qr_decomposes x r ->
    let tol := fun j => atol + rtol * standard_deviation root x j in
    exists c : 'I_K -> bool,
      [/\ detect_collinearity root atol rtol x (Some r) = (if [exists j, c j] then [:: Issues c] else [::]),
          forall j, ~~ c j -> forall e, uses_earlier j e -> tol j ^+ 2 <= squares (col j x - x *m e) &
          forall j, c j -> (forall k : 'I_K, (k < j)%N -> ~~ c k) ->
            exists2 e, uses_earlier j e & squares (col j x - x *m e) < tol j ^+ 2].
  Proof.
    move=> A T KN Q tol. exists (fun j : 'I_K => `|diagonal_element r j| < atol + rtol * column_std root x j).
    have P : forall j, 0 < tol j by move=> j; rewrite /tol -column_stdE; exact: tolerance_gt0.
    split; first by rewrite detect_flags.
    - move=> j; rewrite -leNgt column_stdE -/(tol j) => L e Ee. case/andP: KN => _ KN.
      apply: le_trans (distance_ge Q KN Ee). rewrite -[X in _ <= X]real_normK ?num_real // ler_pexpn2r ?nnegrE ?normr_ge0 //.
      exact/ltW/P.
    - move=> j; rewrite column_stdE -/(tol j) => L M. case/andP: KN => _ KN.
      have D : forall k : 'I_K, (k < j)%N -> diagonal_element r k != 0.
      { move=> k Lt. have := M k Lt. rewrite -leNgt column_stdE -/(tol k) => L'. rewrite -normr_gt0. exact: lt_le_trans (P k) L'. }
      have [e Ee E] := distance_attained Q KN D. exists e => //. rewrite E -real_normK ?num_real //.
      by rewrite ltr_pexpn2r ?nnegrE ?normr_ge0 //; exact/ltW/P.
  Qed.

  Lemma dependent_is_detected atol rtol N K (x : 'M[F]_(N, K)) r : 0 < atol -> 0 < rtol -> (1 < N)%N || (K <= N)%N ->
    dependent x -> (forall r', r = Some r' -> qr_decomposes x r') ->
    detect_collinearity root atol rtol x r <> [::].
  Proof.
    move=> A T KN D Q. have K0 : (0 < K)%N.
    { case: (posnP K) => // Kz. case: D => c C _. subst K. by rewrite (flatmx0 c) eqxx in C. }
    have N0 : (0 < N)%N by case/orP: KN => [/ltnW//|L]; exact: leq_trans K0 L.
    case: r Q => [r|] Q; last first.
      by rewrite /detect_collinearity /identify_collinearity le_maxl leNgt A /= lt_minr A T muln_gt0 K0 N0.
    case: (leqP K N) => L.
    - have [j J] := dependent_zero L (Q _ erefl) D. rewrite detect_flags ?K0 //=.
      case: existsP => // X; exfalso; apply: X; exists j. by rewrite J normr0 tolerance_gt0.
    - rewrite /detect_collinearity /identify_collinearity le_maxl leNgt A /= lt_minr A T muln_gt0 K0 N0 /below_tolerance /=.
      rewrite leqNgt L /=. case: eqP => // E. case/orP: KN => X; [by rewrite E in X|by rewrite leqNgt L in X].
  Qed.

  Lemma one_zero_tolerance atol rtol N K (x : 'M[F]_(N, K)) r : (atol <= 0) || (rtol <= 0) ->
    detect_collinearity root atol rtol x r = [::].
  Proof.
    move=> Z. rewrite /detect_collinearity /identify_collinearity lt_minr. case: ifP => // _.
    have -> : (0 < atol) && (0 < rtol) = false by rewrite !ltNge -negb_or Z.
    rewrite andbF. by case: existsP => // -[].
  Qed.

  (* ---------- Positive semidefinite matrices ---------- *)

  Lemma diag_form n (s : 'rV[F]_n) (w : 'cV[F]_n) : form (diag_mx s) w = \sum_i s 0 i * w i 0 ^+ 2.
  Proof.
    rewrite /form -mulmxA mul_diag_mx mxE; apply: eq_bigr => i _. by rewrite !mxE expr2 mulrCA.
  Qed.

  Lemma form_congruent n (A v : 'M[F]_n) w : form (v^T *m A *m v) w = form A (v *m w).
  Proof. by rewrite /form trmx_mul !mulmxA. Qed.

  Lemma recomposed_psd n (s : 'rV[F]_n) v : (forall i, 0 <= s 0 i) -> psd (recomposed s v).
  Proof.
    move=> S; split; first by rewrite /is_symmetric /recomposed !trmx_mul tr_diag_mx trmxK mulmxA.
    move=> w. rewrite form_congruent diag_form. apply: sumr_ge0 => i _. apply: mulr_ge0 => //; exact: sqr_ge0.
  Qed.

  Lemma square_zero n (D : 'M[F]_n) : D^T = D -> D *m D = 0 -> D = 0.
  Proof.
    move=> S Z. apply/matrixP => i j. rewrite mxE. have := congr1 (fun m : 'M[F]_n => m j j) Z. rewrite !mxE => E.
    have {}E : \sum_k D k j ^+ 2 = 0.
    { rewrite -[RHS]E; apply: eq_bigr => k _. by rewrite -{2}S mxE expr2. }
    move/eqP: E; rewrite psumr_eq0 => [|k _]; last exact: sqr_ge0.
    move/allP => /(_ i); rewrite mem_index_enum => /(_ isT); by rewrite sqrf_eq0 => /eqP.
  Qed.

  (** The square root of a squared diagonal matrix among PSD matrices is unique. *)
  Lemma psd_diagonal n (A : 'M[F]_n) (s : 'rV[F]_n) : psd A -> (forall i, 0 <= s 0 i) ->
    A *m A = diag_mx s *m diag_mx s -> A = diag_mx s.
  Proof.
    move=> [SA PA] S0 E. set S := diag_mx s in E *. have SS : S^T = S by rewrite tr_diag_mx.
    have C : A *m S = S *m A.
    { have C2 : A *m S *m S = S *m (S *m A) by rewrite -mulmxA [RHS]mulmxA -E mulmxA.
      apply/matrixP => i j. move/matrixP: C2 => /(_ i j).
      rewrite /S !mul_mx_diag !mul_diag_mx !mxE => X.
      have : A i j * (s 0 j - s 0 i) * (s 0 j + s 0 i) = 0.
      { have -> : A i j * (s 0 j - s 0 i) * (s 0 j + s 0 i) = A i j * s 0 j * s 0 j - s 0 i * (s 0 i * A i j).
        { rewrite -mulrA -subr_sqr !expr2 mulrBr; congr (_ - _); first by rewrite mulrA. by rewrite mulrC mulrA. }
        by rewrite X subrr. }
      move/eqP; rewrite mulf_eq0 mulf_eq0 subr_eq0 -orbA => /or3P[/eqP->|/eqP->|/eqP T].
      - by rewrite mul0r mulr0.
      - by rewrite mulrC.
      - have [Z1 Z2] : s 0 j = 0 /\ s 0 i = 0.
        { move/eqP: T; rewrite paddr_eq0 // => /andP[/eqP -> /eqP ->] //. }
        by rewrite Z1 Z2 mulr0 mul0r. }
    pose D := A - S. have SD : D^T = D by rewrite /D linearB /= SA SS.
    have Z : D *m (A + S) = 0.
    { rewrite /D mulmxBl !mulmxDr E C. by rewrite [S *m A + _]addrC subrr. }
    have DSD : S *m D = 0.
    { apply/matrixP => i j. pose w : 'cV[F]_n := D *m delta_mx j 0.
      have Q : form A w + form S w = 0.
      { rewrite -[LHS](_ : (w^T *m (A + S) *m w) 0 0 = _).
        - by rewrite /w trmx_mul SD -(mulmxA _ D) Z mulmx0 mul0mx mxE.
        - by rewrite mulmxDr mulmxDl mxE. }
      have FS : form S w = 0.
      { have S1 : 0 <= form S w by rewrite diag_form; apply: sumr_ge0 => k _; apply: mulr_ge0 => //; exact: sqr_ge0.
        move/eqP: Q; rewrite paddr_eq0 //. by move=> /andP[_ /eqP]. }
      move: FS; rewrite diag_form => /eqP; rewrite psumr_eq0 => [|k _]; last by apply: mulr_ge0 => //; exact: sqr_ge0.
      move/allP => /(_ i); rewrite mem_index_enum => /(_ isT). rewrite mul_diag_mx [in RHS]mxE mxE mulf_eq0 sqrf_eq0.
      have -> : w i 0 = D i j by rewrite /w -colE mxE.
      by move=> /orP[/eqP->|/eqP->]; rewrite ?mul0r ?mulr0. }
    have DS : D *m S = 0 by have := congr1 trmx DSD; rewrite trmx_mul SD SS trmx0.
    have DD : D *m D = 0.
    { have DA : D *m A = 0 by move: Z; rewrite mulmxDr DS addr0. by rewrite {2}/D mulmxBr DA DS subrr. }
    have := square_zero SD DD. by move/eqP; rewrite subr_eq0 => /eqP.
  Qed.

  Lemma svd_psd n (x : 'M[F]_n) s v : psd x -> svd_of x s v -> recomposed s v = x.
  Proof.
    move=> [Sx Px] [u [U V S0 E]]. have V2 : v^T *m v = 1%:M by exact: mulmx1C.
    pose A := v *m x *m v^T.
    have PA : psd A.
    { split; first by rewrite /is_symmetric /A !trmx_mul trmxK Sx mulmxA.
      move=> w. by rewrite /A -{1}[v]trmxK form_congruent. }
    have AA : A *m A = diag_mx s *m diag_mx s.
    { have X2 : x *m x = v^T *m (diag_mx s *m diag_mx s) *m v.
      { rewrite -{1}Sx E !trmx_mul tr_diag_mx !mulmxA. rewrite -(mulmxA _ u^T u) U mulmx1. by []. }
      rewrite /A !mulmxA -(mulmxA _ v^T v) V2 mulmx1 -(mulmxA _ x x) X2 !mulmxA V mul1mx -!mulmxA V mulmx1. by []. }
    have ES := psd_diagonal PA S0 AA.
    by rewrite /recomposed -ES /A !mulmxA V2 mul1mx -mulmxA V2 mulmx1.
  Qed.

  Lemma psd_accepted atol rtol n (x : 'M[F]_n) s v : 0 <= atol -> 0 <= rtol -> psd x -> svd_of x s v ->
    require (identify_psd (Some atol) (Some rtol) x (Some (s, v))) = Met.
  Proof.
    move=> A T P S. rewrite /identify_psd. case: (0 < n)%N => //=. rewrite (svd_psd P S).
    have -> : [forall i, forall j, `|x i j - x i j| <= atol + rtol * `|x i j|] = true => //.
    apply/forallP => i; apply/forallP => j. rewrite subrr normr0. by rewrite addr_ge0 // mulr_ge0.
  Qed.

  Lemma accepted_psd atol rtol n (x : 'M[F]_n) s v : svd_of x s v ->
    require (identify_psd (Some atol) (Some rtol) x (Some (s, v))) = Met ->
    exists2 y, psd y & forall i j, `|y i j - x i j| <= atol + rtol * `|x i j|.
  Proof.
    move=> S. rewrite /identify_psd. case: n x s v S => [|n] x s v S /=.
    - move=> _. exists x; last by case.
      have Z : x = 0 by apply/matrixP; case.
      split; first by rewrite /is_symmetric Z trmx0. by move=> w; rewrite /form Z mulmx0 mul0mx mxE.
    - case: ifP => // C _. exists (recomposed s v); first by apply: recomposed_psd; case: S => u [].
      move=> i j. move/negbFE/forallP: C => /(_ i)/forallP/(_ j). by [].
  Qed.

  Lemma zero_tolerances n (x : 'M[F]_n) s v : svd_of x s v ->
    (require (identify_psd (Some 0) (Some 0) x (Some (s, v))) = Met <-> psd x).
  Proof.
    move=> S; split=> [A|P]; last exact: psd_accepted.
    have [y P C] := accepted_psd S A. suff <- : y = x by [].
    apply/matrixP => i j. move: (C i j). by rewrite mul0r addr0 normr_le0 subr_eq0 => /eqP.
  Qed.

  Add Ring field_ring : (field_is_ring F).

  (** Two-by-two covariance matrices. *)
  Lemma form2 (A : 'M[F]_2) w : form A w = A 0 0 * w 0 0 ^+ 2 + (A 0 1 + A 1 0) * (w 0 0 * w 1 0) + A 1 1 * w 1 0 ^+ 2.
  Proof.
    rewrite /form !mxE !big_ord_recl !big_ord0 !addr0 !mxE !big_ord_recl !big_ord0 !addr0 !mxE.
    have -> : lift ord0 ord0 = 1 :> 'I_2 by exact/val_inj. have -> : ord0 = 0 :> 'I_2 by []. field_identity F.
  Qed.

  Lemma covariance_form (vx vo c r : F) w :
    form (error_covariances vx vo c r) w = vx * w 0 0 ^+ 2 + (c * r + c * r) * (w 0 0 * w 1 0) + vo * w 1 0 ^+ 2.
  Proof. by rewrite form2 !mxE. Qed.

  Lemma covariances_psd (vx vo c r : F) : 0 <= vx -> 0 <= vo -> r ^+ 2 = vx * vo -> c ^+ 2 <= 1 ->
    psd (error_covariances vx vo c r).
  Proof.
    move=> X O R C; split.
    - apply/matrixP => i j; rewrite !mxE eq_sym. by case: eqP => // ->.
    - move=> w. rewrite covariance_form. case: (eqVneq vx 0) => [Z|NZ].
      + have -> : r = 0 by apply/eqP; rewrite -sqrf_eq0 R Z mul0r.
        rewrite Z !mulr0 !mul0r addr0 mul0r !add0r. by rewrite mulr_ge0 ?sqr_ge0.
      + have Xp : 0 < vx by rewrite lt0r NZ X. rewrite -(pmulr_rge0 _ Xp).
        have -> : vx * (vx * w 0 0 ^+ 2 + (c * r + c * r) * (w 0 0 * w 1 0) + vo * w 1 0 ^+ 2) =
          (vx * w 0 0 + c * r * w 1 0) ^+ 2 + (vx * vo - c ^+ 2 * r ^+ 2) * w 1 0 ^+ 2 by field_identity F.
        rewrite addr_ge0 ?sqr_ge0 // mulr_ge0 ?sqr_ge0 // R subr_ge0 ler_pimull // mulr_ge0 //.
  Qed.

  Lemma psd_covariances (vx vo c r : F) : 0 < vx -> 0 < vo -> r ^+ 2 = vx * vo -> psd (error_covariances vx vo c r) -> c ^+ 2 <= 1.
  Proof.
    move=> X O R [_ P]. pose w : 'cV[F]_2 := \col_i if i == 0 then - (c * r) else vx.
    move: (P w). rewrite covariance_form !mxE /=.
    have -> : vx * (- (c * r)) ^+ 2 + (c * r + c * r) * (- (c * r) * vx) + vo * vx ^+ 2 =
      vx * (vx * vo - c ^+ 2 * r ^+ 2) by field_identity F.
    rewrite pmulr_rge0 // R subr_ge0 -[X in _ <= X]mul1r ler_pmul2r //. by rewrite mulr_gt0.
  Qed.

  (* ---------- Stability ---------- *)

  Lemma form_sub n (A B : 'M[F]_n) w : form (A - B) w = form A w - form B w.
  Proof. by rewrite /form mulmxBr mulmxBl mxE [X in _ + X]mxE. Qed.
  Lemma form_add n (A B : 'M[F]_n) w : form (A + B) w = form A w + form B w.
  Proof. by rewrite /form mulmxDr mulmxDl mxE. Qed.

  Definition cross n (A : 'M[F]_n) (p q : 'cV[F]_n) : F := (p^T *m A *m q) 0 0.
  Lemma form_pair n (A : 'M[F]_n) (p q : 'cV[F]_n) a b :
    form A (a *: p - b *: q) + form A (b *: p + a *: q) = (a ^+ 2 + b ^+ 2) * (form A p + form A q).
  Proof.
    have X : forall c d, form A (c *: p + d *: q) = c ^+ 2 * form A p + c * d * (cross A p q + cross A q p) + d ^+ 2 * form A q.
    { move=> c d. have T : (c *: p + d *: q)^T = c *: p^T + d *: q^T by rewrite linearD /= !linearZ.
      rewrite /form /cross T !mulmxDl !mulmxDr -!scalemxAl -!scalemxAr.
      set pp := p^T *m A *m p; set pq := p^T *m A *m q; set qp := q^T *m A *m p; set qq := q^T *m A *m q.
      have E : forall k (M N : 'M[F]_1), (M + N) 0 0 = M 0 0 + N 0 0 /\ (k *: M) 0 0 = k * M 0 0 by move=> k M N; rewrite !mxE.
      rewrite !(proj1 (E 0 _ _)) !(proj2 (E _ _ 0)). field_identity F. }
    rewrite -scaleNr !X. field_identity F.
  Qed.

  Lemma pd_pair n (S : 'M[F]_n) (p q : 'cV[F]_n) : pd S -> (p != 0) || (q != 0) -> 0 < form S p + form S q.
  Proof.
    move=> [_ P]. have G : forall w, 0 <= form S w.
    { move=> w. case: (eqVneq w 0) => [->|N]; [by rewrite /form mulmx0 mxE|exact/ltW/P]. }
    by move=> /orP[N|N]; [apply: ltr_paddr|apply: ltr_paddl]; rewrite ?G ?P.
  Qed.

  (** If there is a stationary distribution, all eigenvalues are inside the unit circle. *)
  Lemma stationary_eigenvalues n (A S V : 'M[F]_n) a b : pd S -> stationary_covariances A S V -> eigenvalue_pair A a b ->
    a ^+ 2 + b ^+ 2 < 1.
  Proof.
    move=> PS [[_ PV] E] [p [q [N Ep Eq]]].
    have H : forall w, form V w = form V (A^T *m w) + form S w.
    { move=> w. by rewrite {1}E form_add -{1}[A]trmxK form_congruent. }
    have Q : form V p + form V q = (a ^+ 2 + b ^+ 2) * (form V p + form V q) + (form S p + form S q).
    { rewrite -form_pair -Ep -Eq {1}(H p) {1}(H q). by rewrite addrACA. }
    have SP := pd_pair PS N. have VP : 0 <= form V p + form V q by rewrite addr_ge0 ?PV.
    rewrite ltNge; apply/negP => G. have : form V p + form V q <= (a ^+ 2 + b ^+ 2) * (form V p + form V q).
    { by rewrite ler_pemull. }
    rewrite {1}Q ger_addl leNgt SP //.
  Qed.

  Lemma largest_modulus (l : seq F) : (foldr Num.max 0 l \in l) || (foldr Num.max 0 l == 0).
  Proof.
    elim: l => [|m l I] /=; first by rewrite eqxx.
    rewrite in_cons. case: (leP m (foldr Num.max 0 l)) => _; last by rewrite eqxx.
    by move: I => /orP[->|->] //; rewrite ?orbT.
  Qed.

  Lemma modulus_le (l : seq F) m : m \in l -> m <= foldr Num.max 0 l.
  Proof.
    elim: l => [//|k l I] /=. rewrite in_cons le_maxr => /orP[/eqP ->|/I ->]; by rewrite ?lexx ?orbT.
  Qed.

  Lemma stationary_modulus n (A S V : 'M[F]_n) l : moduli_of A l -> pd S -> stationary_covariances A S V ->
    foldr Num.max 0 l < 1.
  Proof.
    move=> [M _] PS St. move: (largest_modulus l) => /orP[I|/eqP ->]; last exact: ltr01.
    have [G [a [b [Ev Eq]]]] := M _ I. have := stationary_eigenvalues PS St Ev. rewrite -Eq => L.
    rewrite ltNge; apply/negP => H. move: L; rewrite ltNge => /negP; apply. by rewrite exprn_ege1.
  Qed.

  Lemma stationary_accepted n (A S V : 'M[F]_n) l atol rtol : moduli_of A l -> pd S -> stationary_covariances A S V ->
    0 <= atol -> 0 <= rtol -> require (identify_stable (Some (atol, rtol)) n (Some l)) = Met.
  Proof.
    move=> M PS St At Rt. rewrite /identify_stable. case: (0 < n)%N => //=.
    have -> // : foldr Num.max 0 l <= 1 + Num.max atol (rtol * Num.max 1 (foldr Num.max 0 l)) = true.
    apply: (le_trans (ltW (stationary_modulus M PS St))). by rewrite ler_addl le_maxr At.
  Qed.

  Lemma explosive_rejected n (A : 'M[F]_n) l a b atol : moduli_of A l -> 0 <= atol -> eigenvalue_pair A a b ->
    (1 + atol) ^+ 2 < a ^+ 2 + b ^+ 2 -> require (identify_stable (Some (atol, 0)) n (Some l)) = NotMet.
  Proof.
    move=> [M1 M] At Ev L. rewrite /identify_stable.
    have N0 : (0 < n)%N.
    { case: n A Ev {M1 M} => // A [p [q [N _ _]]]. by rewrite (flatmx0 p) (flatmx0 q) eqxx in N. }
    rewrite N0 /= mul0r (max_idPl At). have [m I E] := M _ _ Ev. rewrite -E in L.
    have -> // : foldr Num.max 0 l <= 1 + atol = false. apply/negbTE; rewrite -ltNge.
    apply: lt_le_trans (modulus_le I). have A0 : 0 <= 1 + atol by rewrite addr_ge0.
    rewrite ltNge; apply/negP => H. have [M0 _] := M1 _ I.
    move: L; rewrite ltNge => /negP; apply. by rewrite ler_pexpn2r.
  Qed.

  Lemma scalar_eigenvalue n (c : F) : eigenvalue_pair (c%:M : 'M[F]_n.+1) c 0.
  Proof.
    exists (delta_mx 0 0), 0. rewrite tr_scalar_mx !mul_scalar_mx !scaler0 subr0 scale0r addr0. split=> //.
    apply/orP; left. apply/eqP => /matrixP/(_ 0 0). rewrite !mxE !eqxx. by apply/eqP; rewrite oner_eq0.
  Qed.

  Lemma rotated_norm (a b p q : F) : (a * p - b * q) ^+ 2 + (b * p + a * q) ^+ 2 = (a ^+ 2 + b ^+ 2) * (p ^+ 2 + q ^+ 2).
  Proof. field_identity F. Qed.

  Lemma scalar_moduli n (c : F) : 0 <= c -> moduli_of (c%:M : 'M[F]_n.+1) [:: c].
  Proof.
    move=> C; split.
    - move=> m; rewrite inE => /eqP ->; split=> //. exists c, 0. rewrite expr0n addr0; split=> //. exact: scalar_eigenvalue.
    - move=> a b [p [q [N E1 E2]]]. exists c; first by rewrite inE. move: E1 E2. rewrite tr_scalar_mx !mul_scalar_mx => E1 E2.
      have P : forall i, c * p i 0 = a * p i 0 - b * q i 0 by move=> i; move/matrixP: E1 => /(_ i 0); rewrite !mxE.
      have Q : forall i, c * q i 0 = b * p i 0 + a * q i 0 by move=> i; move/matrixP: E2 => /(_ i 0); rewrite !mxE.
      have [i I] : exists i, 0 < p i 0 ^+ 2 + q i 0 ^+ 2.
      { case/orP: N => /last_nonzero [i I _]; exists i;
          [apply: ltr_paddr|apply: ltr_paddl]; rewrite ?sqr_ge0 // lt0r sqrf_eq0 I sqr_ge0. by []. by []. }
      have := rotated_norm a b (p i 0) (q i 0). rewrite -P -Q !exprMn -mulrDr => M.
      move/eqP: M. rewrite -subr_eq0 -mulrBl mulf_eq0 subr_eq0 => /orP[/eqP->//|/eqP Z].
      by rewrite Z ltxx in I.
  Qed.
End Lemmas.
