(** What users rely on about averages over surveys. *)
From Coq Require Import Reals List Bool Arith.
From Verif Require Import Base FltModel MicroModel AverageModel.
Import ListNotations.
Local Open Scope R_scope.

(** The same survey with other units of survey weights, of integration weights, or of values. *)
Definition other_units (c d : R) (m : micro_market) : micro_market :=
  mk_micro_market (m_J m) (m_I m) (m_same m) (fun i => d * m_agent_weight m i) (m_p m) (m_dp m) (fun i x => c * m_weight m i x) (m_value m).
Definition other_values (a b : nat -> R) (m : micro_market) : micro_market :=
  mk_micro_market (m_J m) (m_I m) (m_same m) (m_agent_weight m) (m_p m) (m_dp m) (m_weight m)
    (fun part i x => a part * m_value m part i x + b part).
Definition each (f : micro_market -> micro_market) (ms : list (shape * micro_market)) : list (shape * micro_market) :=
  map (fun m => (fst m, f (snd m))) ms.

(** Agents of [m'] are copies of those of [m] (agent i is a copy of [h i]), among which integration weights are divided: agents may
    be listed in another order, split, put together if they are the same, and left out if they have no weight. *)
Record same_population (h : nat -> nat) (m m' : micro_market) : Prop := {
  sp_products : m_J m' = m_J m;
  sp_groups : forall j k, m_same m' j k = m_same m j k;
  sp_copy : forall i, (i < m_I m')%nat -> (h i < m_I m)%nat;
  sp_probabilities : forall i j, (i < m_I m')%nat -> m_p m' i j = m_p m (h i) j;
  sp_tangents : forall i j, (i < m_I m')%nat -> m_dp m' i j = m_dp m (h i) j;
  sp_survey : forall i x, (i < m_I m')%nat -> m_weight m' i x = m_weight m (h i) x;
  sp_values : forall part i x, (i < m_I m')%nat -> m_value m' part i x = m_value m part (h i) x;
  sp_weights : forall i, (i < m_I m)%nat -> m_agent_weight m i = sumn (m_I m') (fun k => if Nat.eqb (h k) i then m_agent_weight m' k else 0);
  sp_nonneg : forall i, (i < m_I m')%nat -> 0 <= m_agent_weight m' i
}.

(** Acceptable arrays of survey weights: I rows, with or without the outside option in one or two further axes. *)
Definition documented_shape (I J : nat) (s : list nat) : Prop :=
  exists n, (n = J \/ n = S J) /\ (s = [I; n] \/ exists k, (k = J \/ k = S J) /\ s = [I; n; k]).
Definition below_zero (x : flt) : Prop := x = NInf \/ exists r, x = Num r /\ r < 0.
(** All markets of a survey with other representations of their populations. *)
Definition same_populations (ms ms' : list (shape * micro_market)) : Prop :=
  Forall2 (fun d d' => fst d' = fst d /\ exists h, same_population h (snd d) (snd d')) ms ms'.
(** And no agents left out. *)
Definition same_agents (ms ms' : list (shape * micro_market)) : Prop :=
  Forall2 (fun d d' => fst d' = fst d /\ exists h, same_population h (snd d) (snd d') /\
    forall i, (i < m_I (snd d))%nat -> exists k, (k < m_I (snd d'))%nat /\ h k = i) ms ms'.
Definition not_surveyed (d : shape * micro_market) : Prop :=
  forall i x, (i < m_I (snd d))%nat -> In x (cells (fst d) (m_J (snd d))) -> m_weight (snd d) i x = 0.
