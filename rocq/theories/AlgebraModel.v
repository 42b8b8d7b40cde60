(** Model of half-vectorisation, of duplication, elimination and commutation matrices, and of the
    covariances of sigma squared.  Matrices are functions of row and column numbers; shapes are
    arguments where they matter.  Definitions only. *)
From Coq Require Import Reals List Bool Arith.
From Verif Require Import Base.
Import ListNotations.
Local Open Scope nat_scope.

Definition mat := nat -> nat -> R.

(** [A @ B] with [m] columns in [A], [A @ x] and [A.T]. *)
Definition mm (m : nat) (A B : mat) : mat := fun i j => sumn m (fun k => (A i k * B k j)%R).
Definition mv (m : nat) (A : mat) (x : nat -> R) : nat -> R := fun i => sumn m (fun k => (A i k * x k)%R).
Definition tr (A : mat) : mat := fun i j => A j i.

(** [np.kron(A, B)] with n x n [B]. *)
Definition kron (n : nat) (A B : mat) : mat := fun p q => (A (p / n)%nat (q / n)%nat * B (p mod n)%nat (q mod n)%nat)%R.

(** [vec]: [np.ravel(x, order='F')] of an n x n matrix.  algebra.py 223-225. *)
Definition vec (n : nat) (A : mat) : nat -> R := fun q => A (q mod n) (q / n).

(** [np.triu_indices(n)] and [np.triu_indices(n, k=1)]. *)
Definition triu_indices (n k : nat) : list (nat * nat) := flat_map (fun r => map (pair r) (seq (r + k) (n - (r + k)))) (seq 0 n).

(** [vech]: [x.T[np.triu_indices_from(x)]].  algebra.py 228-230. *)
Definition vech (n : nat) (A : mat) : list R := map (fun p => tr A (fst p) (snd p)) (triu_indices n 0).

(** [A[indices] = values]. *)
Definition put (A : mat) (i j : nat) (v : R) : mat := fun r c => if (Nat.eqb r i && Nat.eqb c j)%bool then v else A r c.
Definition put_all (A : mat) (indices : list (nat * nat)) (values : list R) : mat :=
  fold_left (fun A p => put A (fst (fst p)) (snd (fst p)) (snd p)) (combine indices values) A.

(** [vech_to_lower].  algebra.py 233-237. *)
Definition vech_to_lower (n : nat) (x : list R) : mat := tr (put_all (fun _ _ => 0%R) (triu_indices n 0) x).

(** [vech_to_full].  algebra.py 240-244. *)
Definition vech_to_full (n : nat) (x : list R) : mat :=
  let A := vech_to_lower n x in put_all A (triu_indices n 1) (map (fun p => tr A (fst p) (snd p)) (triu_indices n 1)).

(** The unit vectors and matrices in loops. *)
Definition unit_vector (k : nat) : nat -> R := fun i => if Nat.eqb i k then 1%R else 0%R.
Definition unit_matrix (i j : nat) : mat := fun r c => if (Nat.eqb r i && Nat.eqb c j)%bool then 1%R else 0%R.

Definition half (n : nat) : nat := n * (n + 1) / 2.
Definition position (n i j : nat) : nat := j * n + i - j * (j + 1) / 2.

(** [elimination_matrix].  algebra.py 190-205. *)
Definition elimination_matrix (n : nat) : mat :=
  fun u q => sumn n (fun i => sumn (i + 1) (fun j => (unit_vector (position n i j) u * vec n (unit_matrix i j) q)%R)).

(** [commutation_matrix].  algebra.py 208-220. *)
Definition commutation_matrix (n : nat) : mat :=
  fun p q => sumn n (fun i => sumn n (fun j => kron n (unit_matrix i j) (tr (unit_matrix i j)) p q)).

(** [duplication_matrix].  algebra.py 180-187. *)
Definition duplication_matrix (n : nat) : mat :=
  let L := elimination_matrix n in
  let K := commutation_matrix n in
  fun q u => (tr L q u + mm (n * n) K (tr L) q u
              - mm (n * n) (mm (n * n) (mm (half n) (tr L) L) K) (tr L) q u)%R.

(** [compute_sigma_squared_vector_covariances] with the value of [scipy.linalg.pinv(D)].
    statistics.py 167-180. *)
Definition identity : mat := fun i j => if Nat.eqb i j then 1%R else 0%R.
Definition sigma_squared_jacobian (n : nat) (pinv_D sigma : mat) : mat :=
  mm (n * n) (mm (n * n) (fun u q => (2 * pinv_D u q)%R) (kron n sigma identity)) (tr (elimination_matrix n)).
Definition sigma_squared_covariances (n : nat) (pinv_D sigma covariances : mat) : mat :=
  let jacobian := sigma_squared_jacobian n pinv_D sigma in
  mm (half n) (mm (half n) jacobian covariances) (tr jacobian).
