(** What results should contain, stated without the model's bookkeeping. *)
From Coq Require Import Reals List Bool Arith.
From Verif Require Import Base ResultsModel.
Import ListNotations.
Local Open Scope R_scope.

(** Results of all steps, from the first to these. *)
Fixpoint history (r : results) : list results :=
  match last_results r with
  | None => [r]
  | Some l => history l ++ [r]
  end.

(** The GMM steps that are documented for each method. *)
Definition documented_steps (one_step initial_update : bool) : list nat :=
  (if initial_update then [0%nat] else []) ++ (if one_step then [1%nat] else [1; 2]%nat).

Definition total (l : list R) : R := fold_right Rplus 0 l.
Definition count (l : list nat) : nat := fold_right plus 0%nat l.

(** A finite distribution of pairs of error terms: K outcomes with probabilities p.  Expectations. *)
Definition expect (K : nat) (p : nat -> R) (f : nat -> R) : R := sumn K (fun k => p k * f k).
(** z has mean zero and variance one. *)
Definition standard (K : nat) (p z : nat -> R) : Prop :=
  sumn K p = 1 /\ expect K p z = 0 /\ expect K p (fun k => z k * z k) = 1.
