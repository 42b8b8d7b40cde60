(** What users of micro moments rely on, from docs/background.rst 230-295. *)
From Coq Require Import Reals List Bool Arith ZArith.
From Verif Require Import Base DemandSpec MicroModel.
Import ListNotations.
Local Open Scope R_scope.

(** ** Choices *)

(** The probability of choosing an option from a set of inside goods, with or without the outside option. *)
Definition chosen (J : nat) (inc : nat -> bool) (out : bool) (V : nat -> R) (a : option nat) : R :=
  match a with
  | Some j => logit J inc out V j
  | None => if out then 1 / (1 + sumn J (fun k => if inc k then exp (V k) else 0)) else 0
  end.
(** First choice [a], and second choice [b] when [a] and all products [h a] are removed from the choice set. *)
Definition joint (J : nat) (h : nat -> nat -> bool) (V : nat -> R) (a b : option nat) : R :=
  chosen J all_goods true V a *
  match a with
  | Some j => chosen J (fun k => negb (h j k)) true V b
  | None => chosen J all_goods false V b
  end.
Definition documented (J : nat) (h : nat -> nat -> bool) (V : nat -> R) (c : cell) : R :=
  match c with
  | Single a => chosen J all_goods true V a
  | Pair a b => joint J h V a b
  end.

Definition product_alone (j k : nat) : bool := Nat.eqb j k.
Definition in_range (J : nat) (a : option nat) : Prop := match a with Some j => (j < J)%nat | None => True end.
Definition all_options (J : nat) : list (option nat) := None :: map Some (seq 0 J).

(** ** Micro moment parts: sums over agents and options *)
Definition integral (s : shape) (J I : nat) (f : nat -> cell -> R) : R :=
  sumn I (fun i => sum_over (cells s J) (f i)).

(** Simulated parts as documented: [V] are utilities of agents, and [m_same] groups of eliminated products. *)
Definition documented_total (ms : list (shape * micro_market * (nat -> nat -> R))) (f : micro_market -> nat -> cell -> R) : R :=
  sum_over ms (fun d => let m := snd (fst d) in
    integral (fst (fst d)) (m_J m) (m_I m) (fun i c =>
      m_agent_weight m i * documented (m_J m) (m_same m) (snd d i) c * m_weight m i c * f m i c)).
Definition documented_part (ms : list (shape * micro_market * (nat -> nat -> R))) (part : nat) : R :=
  documented_total ms (fun m => m_value m part) / documented_total ms (fun _ _ _ => 1).
(** Logit probabilities from utilities. *)
Definition from_utilities (d : shape * micro_market * (nat -> nat -> R)) : Prop :=
  forall i j, m_p (snd (fst d)) i j = logit (m_J (snd (fst d))) all_goods true (snd d i) j.
Definition nonnegative_weights (d : shape * micro_market * (nat -> nat -> R)) : Prop :=
  (forall i, 0 <= m_agent_weight (snd (fst d)) i) /\ forall i c, 0 <= m_weight (snd (fst d)) i c.

(** ** Data for one dataset, with probabilities that depend on a parameter *)
Definition with_p (m : micro_market) (p : nat -> nat -> R) : micro_market :=
  mk_micro_market (m_J m) (m_I m) (m_same m) (m_agent_weight m) p (m_dp m) (m_weight m) (m_value m).
Definition path := (shape * micro_market * (R -> nat -> nat -> R))%type.
Definition at_ (x : R) (d : path) : shape * micro_market := (fst (fst d), with_p (snd (fst d)) (snd d x)).

(** Probabilities of an agent that leave something for the outside option. *)
Definition proper (J : nat) (p : nat -> R) : Prop := (forall j, (j < J)%nat -> 0 < p j) /\ sumn J p < 1.

(** Near [t], the market has no groups of eliminated products, nonnegative weights, and proper probabilities;
    [m_dp] are their derivatives; and market shares do not move. *)
Record smooth_path (t : R) (d : path) : Prop := {
  sp_same : forall j k, m_same (snd (fst d)) j k = Nat.eqb j k;
  sp_agents : forall i, (i < m_I (snd (fst d)))%nat -> 0 <= m_agent_weight (snd (fst d)) i;
  sp_weights : forall i c, 0 <= m_weight (snd (fst d)) i c;
  sp_proper : exists r, 0 < r /\ forall x, Rabs (x - t) < r -> forall i, (i < m_I (snd (fst d)))%nat -> proper (m_J (snd (fst d))) (snd d x i);
  sp_dp : forall i j, (i < m_I (snd (fst d)))%nat -> (j < m_J (snd (fst d)))%nat ->
    derivable_pt_lim (fun x => snd d x i j) t (m_dp (snd (fst d)) i j);
  sp_shares : forall j, (j < m_J (snd (fst d)))%nat ->
    sumn (m_I (snd (fst d))) (fun i => m_agent_weight (snd (fst d)) i * m_dp (snd (fst d)) i j) = 0
}.

(** Ignoring groups of eliminated products. *)
Definition ungrouped (d : path) : path :=
  let m := snd (fst d) in
  (fst (fst d), mk_micro_market (m_J m) (m_I m) product_alone (m_agent_weight m) (m_p m) (m_dp m) (m_weight m) (m_value m), snd d).

(** The user's gradient of a function of parts. *)
Definition gradient_of (P : nat) (f : (nat -> R) -> R) (g : (nat -> R) -> nat -> R) : Prop :=
  forall (v : R -> nat -> R) (dv : nat -> R) t,
    (forall q, (q < P)%nat -> derivable_pt_lim (fun x => v x q) t (dv q)) ->
    derivable_pt_lim (fun x => f (v x)) t (sumn P (fun q => g (v t) q * dv q)).

(** ** Scores *)

(** IDs in order of appearance. *)
Fixpoint appearances (seen ids : list Z) : list Z :=
  match ids with
  | [] => []
  | n :: ids => if existsb (Z.eqb n) seen then appearances seen ids else n :: appearances (n :: seen) ids
  end.
