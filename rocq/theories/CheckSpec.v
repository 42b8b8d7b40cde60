(** What checks of matrices should find, without reference to the model. *)
Set Warnings "-notation-overridden,-ambiguous-paths".
From mathcomp Require Import all_ssreflect all_algebra.
Set Implicit Arguments.
Unset Strict Implicit.
Unset Printing Implicit Defensive.
Import GRing.Theory Num.Theory.
Local Open Scope ring_scope.

Section Spec.
  Context {F : realFieldType}.

  (** Columns of x are linearly dependent. *)
  Definition dependent N K (x : 'M[F]_(N, K)) : Prop := exists2 c : 'cV[F]_K, c != 0 & x *m c = 0.
  (** Column j is a linear combination of other columns. *)
  Definition combination_of_others N K (x : 'M[F]_(N, K)) (j : 'I_K) : Prop :=
    exists2 c : 'cV[F]_K, c j 0 = 0 & col j x = x *m c.
  (** c only uses columns before j. *)
  Definition uses_earlier K (j : 'I_K) (c : 'cV[F]_K) : Prop := forall k : 'I_K, (j <= k)%N -> c k 0 = 0.
  (** Sum of squares. *)
  Definition squares N (v : 'cV[F]_N) : F := \sum_i v i 0 ^+ 2.
  (** Population standard deviation of column j, given a function for square roots. *)
  Definition standard_deviation (root : F -> F) N K (x : 'M[F]_(N, K)) (j : 'I_K) : F :=
    root (squares (col j x - const_mx ((\sum_i x i j) / N%:R)) / N%:R).
  (** A full QR decomposition. *)
  Definition qr_decomposes N K (x : 'M[F]_(N, K)) (r : 'M[F]_(N, K)) : Prop :=
    exists q : 'M[F]_N, [/\ q^T *m q = 1%:M, x = q *m r & forall (i : 'I_N) (j : 'I_K), (j < i)%N -> r i j = 0].

  Definition is_symmetric n (A : 'M[F]_n) : Prop := A^T = A.
  Definition form n (A : 'M[F]_n) (w : 'cV[F]_n) : F := (w^T *m A *m w) 0 0.
  Definition psd n (A : 'M[F]_n) : Prop := is_symmetric A /\ forall w, 0 <= form A w.
  (** Symmetric and strictly positive. *)
  Definition pd n (A : 'M[F]_n) : Prop := is_symmetric A /\ forall w, w != 0 -> 0 < form A w.
  (** A singular value decomposition: singular values and right singular vectors. *)
  Definition svd_of n (x : 'M[F]_n) (s : 'rV[F]_n) (v : 'M[F]_n) : Prop :=
    exists u : 'M[F]_n, [/\ u^T *m u = 1%:M, v *m v^T = 1%:M, forall i, 0 <= s 0 i & x = u *m diag_mx s *m v].

  (** a + bi is an eigenvalue of the real matrix A (with left eigenvector p + qi). *)
  Definition eigenvalue_pair n (A : 'M[F]_n) (a b : F) : Prop :=
    exists p q : 'cV[F]_n, [/\ (p != 0) || (q != 0), A^T *m p = a *: p - b *: q & A^T *m q = b *: p + a *: q].
  (** The moduli of eigenvalues: each is nonnegative and belongs to an eigenvalue, and all eigenvalues are there. *)
  Definition moduli_of n (A : 'M[F]_n) (l : seq F) : Prop :=
    (forall m, m \in l -> 0 <= m /\ exists a b, eigenvalue_pair A a b /\ m ^+ 2 = a ^+ 2 + b ^+ 2) /\
    (forall a b, eigenvalue_pair A a b -> exists2 m, m \in l & m ^+ 2 = a ^+ 2 + b ^+ 2).
  (** V is the covariance matrix of a stationary autoregression with innovations that have covariance matrix S. *)
  Definition stationary_covariances n (A S V : 'M[F]_n) : Prop := psd V /\ V = A *m V *m A^T + S.
End Spec.
