(** Checks of matrices: collinearity, positive semidefiniteness and stability.  pyblp/utilities/algebra.py and
    pyblp/economies/economy.py.  Matrices have elements in any real field, and arithmetic is exact.  Definitions only. *)
Set Warnings "-notation-overridden,-ambiguous-paths".
From mathcomp Require Import all_ssreflect all_algebra.
Set Implicit Arguments.
Unset Strict Implicit.
Unset Printing Implicit Defensive.
Import GRing.Theory Num.Theory.
Local Open Scope ring_scope.

Section Check.
  Context {F : realFieldType}.

  (* ---------- Collinearity ---------- *)

  (** [x.std(axis=0)]: population standard deviations, given a function for square roots. *)
  Definition column_mean N K (x : 'M[F]_(N, K)) (j : 'I_K) : F := (\sum_i x i j) / N%:R.
  Definition column_std (root : F -> F) N K (x : 'M[F]_(N, K)) (j : 'I_K) : F :=
    root ((\sum_i (x i j - column_mean x j) ^+ 2) / N%:R).

  (** Elements of [r.diagonal()]: there are as many as the smaller dimension of r. *)
  Definition diagonal_element N K (r : 'M[F]_(N, K)) (d : nat) : F :=
    match insub d : option 'I_N, insub d : option 'I_K with Some i, Some j => r i j | _, _ => 0 end.
  (** [np.abs(r.diagonal()) < atol + rtol * x.std(axis=0)]: with fewer rows than columns the lengths differ, which
      raises a ValueError (None), unless there is only one row: its element is compared with each column's tolerance. *)
  Definition below_tolerance (root : F -> F) (atol rtol : F) N K (x r : 'M[F]_(N, K)) : option ('I_K -> bool) :=
    if (K <= N)%N then Some (fun j : 'I_K => `|diagonal_element r j| < atol + rtol * column_std root x j)
    else if N == 1%N then Some (fun j : 'I_K => `|diagonal_element r 0| < atol + rtol * column_std root x j)
    else None.

  (** [precisely_identify_collinearity]: whether each column is said to be collinear, and whether this succeeded.
      r is what the QR decomposition returns, None if it raises one of the exceptions that are caught.  algebra.py 37-54. *)
  Definition identify_collinearity (root : F -> F) (atol rtol : F) N K (x : 'M[F]_(N, K)) (r : option 'M[F]_(N, K))
      : ('I_K -> bool) * bool :=
    if (0 < N * K)%N && (0 < Num.min atol rtol) then
      match r with
      | Some r => match below_tolerance root atol rtol x r with Some c => (c, true) | None => (fun=> false, false) end
      | None => (fun=> false, false)
      end
    else (fun=> false, true).

  (** What is said about one matrix: that the decomposition failed, or about which columns there are issues. *)
  Inductive collinear_warning K := Failed | Issues (c : 'I_K -> bool).
  Arguments Failed {K}.
  (** [_detect_collinearity] for one matrix.  economy.py 197-232; names of columns and messages are not modelled. *)
  Definition detect_collinearity (root : F -> F) (atol rtol : F) N K (x : 'M[F]_(N, K)) (r : option 'M[F]_(N, K))
      : seq (collinear_warning K) :=
    if Num.max atol rtol <= 0 then [::]
    else let: (c, successful) := identify_collinearity root atol rtol x r in
         (if successful then [::] else [:: Failed]) ++ (if [exists j, c j] then [:: Issues c] else [::]).

  (* ---------- Positive semidefinite matrices ---------- *)

  (** Elements of [np.allclose(a, x, atol, rtol)], where None is an infinite tolerance: infinity times zero is NaN, and
      comparisons with NaN are false. *)
  Definition close (atol rtol : option F) (a x : F) : bool :=
    match atol, rtol with
    | Some atol, Some rtol => `|a - x| <= atol + rtol * `|x|
    | None, Some _ => true
    | _, None => x != 0
    end.
  (** [(v.T * s) @ v] *)
  Definition recomposed n (s : 'rV[F]_n) (v : 'M[F]_n) : 'M[F]_n := v^T *m diag_mx s *m v.
  (** [precisely_identify_psd]: whether the matrix is PSD and whether this succeeded, given singular values and right
      singular vectors, None if the decomposition raises one of the exceptions that are caught.  algebra.py 57-72. *)
  Definition identify_psd (atol rtol : option F) n (x : 'M[F]_n) (svd : option ('rV[F]_n * 'M[F]_n)) : bool * bool :=
    if (0 < n)%N && (atol || rtol) then
      match svd with
      | Some (s, v) => ([forall i, forall j, close atol rtol (recomposed s v i j) (x i j)], true)
      | None => (false, false)
      end
    else (true, true).

  (** What a check does: nothing, or it raises one of two ValueErrors. *)
  Inductive requirement := Met | CannotCheck | NotMet.
  (** [_require_psd] and [_require_stable].  economy.py 251-269. *)
  Definition require (identified : bool * bool) : requirement :=
    let: (fine, successful) := identified in
    if ~~ successful then CannotCheck else if ~~ fine then NotMet else Met.

  (** The matrix that is checked before structural errors are simulated, given the square root of the product of the
      two variances.  simulation.py 615-617. *)
  Definition error_covariances (xi_variance omega_variance correlation root : F) : 'M[F]_2 :=
    \matrix_(i, j) if i == j then (if i == 0 then xi_variance else omega_variance) else correlation * root.

  (* ---------- Stable matrices ---------- *)

  (** [precisely_identify_stable], given the moduli of eigenvalues, None if computing them raises one of the exceptions
      that are caught.  Both tolerances are infinite (None) or both are finite: with one that is infinite, every matrix
      is accepted if these were computed.  algebra.py 75-90. *)
  Definition identify_stable (tolerances : option (F * F)) n (moduli : option (seq F)) : bool * bool :=
    match tolerances with
    | Some (atol, rtol) =>
        if (0 < n)%N then
          match moduli with
          | Some l => let norm := foldr Num.max 0 l in (norm <= 1 + Num.max atol (rtol * Num.max 1 norm), true)
          | None => (false, false)
          end
        else (true, true)
    | None => (true, true)
    end.
End Check.
Arguments Failed {K}.
