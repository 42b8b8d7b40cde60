(** Importance sampling from a population: candidate agents are independent draws of types of agents, cutoffs are
    independent uniform draws, and agents that are accepted are equally likely to be sampled. *)
From Coq Require Import Reals List Bool Arith.
From Verif Require Import Base SchedModel.
Import ListNotations.
Local Open Scope R_scope.

(** The mean of [h] over types. *)
Definition population_mean (n : nat) (f h : nat -> R) : R := sumn n (fun x => f x * h x).

(** Means of functions of one cutoff: linear, and a cutoff is smaller than a number with that probability. *)
Record uniform_law (numbers : R -> Prop) (U : (R -> R) -> R) : Prop := {
  law_plus : forall f g, U (fun u => f u + g u) = U f + U g;
  law_scale : forall c f, U (fun u => c * f u) = c * U f;
  law_total : U (fun _ => 1) = 1;
  law_below : forall a, numbers a -> U (fun u => if Rlt_dec u a then 1 else 0) = a
}.

(** The mean of a function of types and cutoffs of [N] candidates. *)
Fixpoint candidates_mean (U : (R -> R) -> R) (n : nat) (f : nat -> R) (N : nat) (g : list nat -> list R -> R) : R :=
  match N with
  | O => g [] []
  | S N' => sumn n (fun x => f x * U (fun u => candidates_mean U n f N' (fun xs us => g (x :: xs) (u :: us))))
  end.

(** There are [K] equally likely ways to choose [draws] of at most [N] distinct elements, and all elements are equally
    likely to be chosen. *)
Definition fair_choice (choose : nat -> list nat -> option (list nat)) (K draws N : nat) : Prop :=
  (0 < K)%nat /\ forall l, NoDup l -> (List.length l <= N)%nat ->
    ((List.length l < draws)%nat -> forall k, (k < K)%nat -> choose k l = None) /\
    ((draws <= List.length l)%nat -> exists sampled : nat -> list nat,
       (forall k, (k < K)%nat -> choose k l = Some (sampled k) /\ incl (sampled k) l) /\
       forall i, In i l -> sumn K (fun k => if existsb (Nat.eqb i) (sampled k) then 1 else 0) = INR K * INR draws / INR (List.length l)).

(** A generator that returns given cutoffs and makes the k-th choice. *)
Definition given_uniform (g : (nat -> R) * nat) (_ : nat) : (nat -> R) * ((nat -> R) * nat) := (fst g, g).
Definition given_choice (choose : nat -> list nat -> option (list nat)) (g : (nat -> R) * nat) (l : list nat) (_ : nat) :
    option (list nat) * ((nat -> R) * nat) := (choose (snd g) l, g).

Section Estimate.
  Variables (choose : nat -> list nat -> option (list nat)) (K draws : nat) (ar share : R) (P : nat -> R).
  (** Weights that the code gives to candidates of types [xs] with cutoffs [us] for the k-th choice. *)
  Definition weights (xs : list nat) (us : list R) (k : nat) : option (nat -> R) :=
    fst (market_weights given_uniform (given_choice choose) (fun i => nth i us 0, k) draws ar (List.length xs) share
           (fun i => P (nth i xs O))).
  (** The mean over choices of the weighted sum of [h], and of whether weights could be computed. *)
  Definition weighted_sum (h : nat -> R) (xs : list nat) (us : list R) : R :=
    sumn K (fun k => match weights xs us k with
                     | Some w => sumn (List.length xs) (fun i => w i * h (nth i xs O))
                     | None => 0
                     end) / INR K.
  Definition succeeds (xs : list nat) (us : list R) : R :=
    sumn K (fun k => match weights xs us k with Some _ => 1 | None => 0 end) / INR K.
End Estimate.
