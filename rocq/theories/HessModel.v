(** Hessians and Jacobians by finite differences within objective evaluations.  pyblp/economies/problem.py
    [_compute_progress], pyblp/utilities/basics.py [compute_finite_differences].  Definitions only. *)
From Coq Require Import Reals List Bool Arith.
From Verif Require Import Base FltModel ProgressModel BasicsModel.
Import ListNotations.

(** Parameters: the first P elements matter. *)
Definition parameters := (nat -> R)%type.

(** [compute_finite_differences] for a function that may raise an exception (None) and that modifies the heap, giving a
    column for each index.  basics.py 421-434. *)
Fixpoint differences (f : heap -> parameters -> heap * option (list flt)) (epsilon : R) (h : heap) (theta : parameters)
    (indices : list nat) : heap * option (list (list flt)) :=
  match indices with
  | [] => (h, Some [])
  | index :: rest =>
      match f h (bump theta index (epsilon / 2)) with
      | (h1, None) => (h1, None)
      | (h1, Some f1) =>
          match f h1 (bump theta index (- (epsilon / 2))) with
          | (h2, None) => (h2, None)
          | (h2, Some f2) =>
              match differences f epsilon h2 theta rest with
              | (h3, None) => (h3, None)
              | (h3, Some columns) => (h3, Some (map (fun x => fdiv x (Num epsilon)) (vsub f1 f2) :: columns))
              end
          end
      end
  end.
(** [np.column_stack(arrays)]. *)
Definition element (columns : list (list flt)) (i j : nat) : flt := nth i (nth j columns []) NaN.
(** [np.c_[hessian + hessian.T] / 2].  problem.py 1599. *)
Definition symmetrized (columns : list (list flt)) (i j : nat) : flt :=
  fdiv (fadd (element columns i j) (element columns j i)) (Num 2).

Section Evaluate.
  Variable c : computation parameters.
  Variable cfg : configuration.
  Variables (P : nat) (epsilon : R).

  (** [compute_perturbed_gradient]: an evaluation that starts from the last progress, of which only the gradient is
      used.  problem.py 1567-1595. *)
  Definition perturbed_gradient (p : progress) (h : heap) (theta : parameters) : heap * option (list flt) :=
    match evaluate c cfg h p theta true with
    | (h', None) => (h', None)
    | (h', Some q) => (h', Some (gradient q))
    end.
  (** [_compute_progress] with a Hessian.  problem.py 986-1599.  P is positive if there is one. *)
  Definition evaluate_hessian (h : heap) (p : progress) (theta : parameters) : heap * option (progress * (nat -> nat -> flt)) :=
    match evaluate c cfg h p theta true with
    | (h1, None) => (h1, None)
    | (h1, Some q) =>
        match differences (perturbed_gradient p) epsilon h1 theta (seq 0 P) with
        | (h2, None) => (h2, None)
        | (h2, Some columns) => (h2, Some (q, symmetrized columns))
        end
    end.

  (** Contributions of linear parameters that are in theta are subtracted from delta and costs.  problem.py 1365-1380. *)
  Variables iv_delta iv_costs : parameters -> list flt -> list flt.
  (** [compute_perturbed_stack].  problem.py 1324-1356. *)
  Definition perturbed_stack (p : progress) (h : heap) (theta : parameters) : heap * option (list flt) :=
    match evaluate c cfg h p theta false with
    | (h', None) => (h', None)
    | (h', Some q) =>
        (h', Some (iv_delta theta (delta q) ++ (if micro_moments c then micro q else [])
                   ++ (if supply c then iv_costs theta (tilde_costs q) else [])))
    end.
  (** [stack_jacobian[:N]], [stack_jacobian[N:N + MM]] and [stack_jacobian[-N:]] for positive N.  problem.py 1359-1364. *)
  Definition demand_rows (N : nat) (column : list flt) : list flt := firstn N column.
  Definition micro_rows (N MM : nat) (column : list flt) : list flt := firstn MM (skipn N column).
  Definition supply_rows (N : nat) (column : list flt) : list flt := skipn (length column - N) column.
  Definition finite_jacobians (N MM : nat) (h : heap) (p : progress) (theta : parameters)
    : heap * option (list (list flt) * list (list flt) * list (list flt)) :=
    match differences (perturbed_stack p) epsilon h theta (seq 0 P) with
    | (h', None) => (h', None)
    | (h', Some columns) =>
        (h', Some (map (demand_rows N) columns, map (micro_rows N MM) columns, map (supply_rows N) columns))
    end.
End Evaluate.
