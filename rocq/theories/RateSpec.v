(** Exact market shares of a logit model with agents who differ, and how strongly they respond to mean utilities. *)
From Coq Require Import Reals Arith List.
From Verif Require Import Base FltModel IterModel DemandSpec RoundModel.
Local Open Scope R_scope.

Section Shares.
  (** Numbers of products and agents, integration weights, mu, and mean utilities. *)
  Variables (J I : nat) (w : nat -> R) (m : nat -> nat -> R) (x : nat -> R).
  Definition chosen (i j : nat) : R := logit J all_goods true (fun k => x k + m i k) j.
  Definition outside_chosen (i : nat) : R := 1 - sumn J (chosen i).
  Definition share_of (j : nat) : R := sumn I (fun i => w i * chosen i j).
  (** How many agents would choose product j the first time and the outside option the second time if they chose twice. *)
  Definition wavering (j : nat) : R := sumn I (fun i => w i * (chosen i j * outside_chosen i)).
End Shares.

(** All of J numbers are at most t apart. *)
Definition apart (J : nat) (x y : nat -> R) (t : R) : Prop := forall k, (k < J)%nat -> Rabs (x k - y k) <= t.

(** Logarithms have relative errors of at most eps. *)
Definition accurate_log (A : arithmetic) (eps : R) : Prop := forall r, 0 < r -> Rabs (Log A r - ln r) <= eps * Rabs (ln r).

(** The outcome of the simple routine or of SQUAREM with some options. *)
Definition routine (f : contraction_fn) (tol : tolerance) (budget : nat) (initial : fvec) (o : outcome) : Prop :=
  simple_iterator f tol budget initial = Some o \/
  exists scheme factor limits q, squarem_iterator f tol budget scheme factor limits initial = Some q /\ o = q_out q.

(** A bound on errors in shares if mean utilities, which are at most X in absolute value, are changed by less than tol:
    the effect of the tolerance, the lower bound on shares, and errors in J probabilities of I agents with a weight of W
    in total, of mu at most M in absolute value, and of logarithms of shares and of their bounds at most Q and C. *)
Definition share_tolerance (J I X M Q C : nat) (W lower eps tol : R) : R :=
  (3 + 2 * W) * tol + lower + 3 * ((2 * INR X + 5 * INR Q + 4 * INR C + 6) * eps) +
  2 * ((W * (10 * INR J + 2 * INR X + 2 * INR M + 25) + 15 * INR I) * eps).

(** By how much an evaluation of the contraction shrinks distances of at most r from the solution, if the chance that
    those who choose a product would choose the outside option were they to choose again is at least g. *)
Definition rate (g r : R) : R := 1 - g * exp (- r) / 2.
(** A bound on how much rounding errors change an evaluation if shares are at least [floor]. *)
Definition share_noise (J I X M : nat) (W eps : R) : R :=
  (W * (10 * (INR J + 2) + 2 * INR (X + M) + 3) + 10 * INR I * (W + 1)) * eps.
Definition step_noise (J I X M Q C : nat) (W eps floor : R) : R :=
  (2 * INR X + 5 * INR Q + 4 * INR C + 4) * eps + 2 * share_noise J I X M W eps / floor.
(** Bounds on shares that are not binding within distance r of the solution. *)
Definition roomy (limits : option R * option R) (r share : R) : Prop :=
  match fst limits with Some l => l <= exp (- (2 * r)) * share | None => True end /\
  match snd limits with Some u => exp (2 * r) * share <= u | None => True end.
