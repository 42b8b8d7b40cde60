(** What second choices mean, independently of formulas for probabilities. *)
From Coq Require Import Reals List Bool Arith.
From Verif Require Import Base DemandSpec DemandModel DerivModel MicroModel MicroSpec NestModel.
Import ListNotations.
Local Open Scope R_scope.

(** A population of types, each with a weight and a strict ranking of options, best first; [None] is the outside
    option.  Each type chooses its best option among those that are on offer. *)
Definition population := list (R * list (option nat)).
Definition same_option (a b : option nat) : bool :=
  match a, b with
  | Some j, Some k => Nat.eqb j k
  | None, None => true
  | _, _ => false
  end.
Definition best (offered : option nat -> bool) (ranking : list (option nat)) : option (option nat) := find offered ranking.
Definition is_best (offered : option nat -> bool) (a : option nat) (ranking : list (option nat)) : bool :=
  match best offered ranking with Some b => same_option a b | None => false end.
Definition except (offered : option nat -> bool) (a b : option nat) : bool := offered b && negb (same_option a b).

(** Shares of types with some choice, and with some first and second choice. *)
Definition share_of (pop : population) (offered : option nat -> bool) (a : option nat) : R :=
  sum_over pop (fun d => if is_best offered a (snd d) then fst d else 0).
Definition joint_share (pop : population) (offered : option nat -> bool) (a b : option nat) : R :=
  sum_over pop (fun d => if is_best offered a (snd d) && is_best (except offered a) b (snd d) then fst d else 0).

(** The population explains probabilities of first choices, and those once an option is eliminated. *)
Definition explains (pop : population) (offered : option nat -> bool) (J : nat) (p : nat -> R) (elim : nat -> nat -> R)
    (oute : nat -> R) : Prop :=
  (forall k, (k < J)%nat -> share_of pop offered (Some k) = p k) /\
  share_of pop offered None = 1 - sumn J p /\
  (forall j k, (j < J)%nat -> (k < J)%nat -> share_of pop (except offered (Some j)) (Some k) = elim j k) /\
  (forall j, (j < J)%nat -> share_of pop (except offered (Some j)) None = 1 - sumn J (elim j)) /\
  (forall k, (k < J)%nat -> share_of pop (except offered None) (Some k) = oute k).

(** Which products an agent can choose, and that something can be chosen. *)
Definition remaining (avail : option (nat -> bool)) (el : option nat) (ids : option (nat -> bool)) (j : nat) : bool :=
  match avail with Some b => b j | None => true end
  && match el with Some k => negb (Nat.eqb j k) | None => true end
  && match ids with Some mask => negb (mask j) | None => true end.
Definition choice_of (out : bool) (avail : option (nat -> bool)) (el : option nat) (ids : option (nat -> bool)) : choice :=
  mk_choice (negb out) (option_map (fun b j => indR (b j)) avail) el ids.
Definition nonempty (J : nat) (out : bool) (avail : option (nat -> bool)) (el : option nat) (ids : option (nat -> bool)) : Prop :=
  out = true \/ exists k, (k < J)%nat /\ remaining avail el ids k = true.

(** Near t, agents' probabilities of first choices, and of first and second choices, are nonnegative, and the latter
    add up to the former; [dq] are their derivatives; and market shares do not move. *)
Definition cell_in_range (J : nat) (c : cell) : Prop :=
  match c with Single a => in_range J a | Pair a b => in_range J a /\ in_range J b end.
Record smooth_cells (t : R) (s : survey) (q : R -> nat -> cell -> R) (dq : nat -> cell -> R) : Prop := {
  sc_agents : forall i, (i < s_I s)%nat -> 0 <= s_agent_weight s i;
  sc_weights : forall i c, 0 <= s_weight s i c;
  sc_near : exists r, 0 < r /\ forall x, Rabs (x - t) < r -> forall i, (i < s_I s)%nat ->
    (forall c, cell_in_range (s_J s) c -> 0 <= q x i c) /\
    (forall a, in_range (s_J s) a -> sum_over (all_options (s_J s)) (fun b => q x i (Pair a b)) = q x i (Single a));
  sc_deriv : forall i c, (i < s_I s)%nat -> cell_in_range (s_J s) c -> derivable_pt_lim (fun x => q x i c) t (dq i c);
  sc_shares : forall a, in_range (s_J s) a -> sumn (s_I s) (fun i => s_agent_weight s i * dq i (Single a)) = 0
}.

(** Every agent can choose some product. *)
Definition can_choose (J : nat) (avail : option (nat -> bool)) : Prop :=
  exists k, (k < J)%nat /\ match avail with Some b => b k | None => true end = true.
Definition row (avail : option (nat -> bool)) : option (nat -> R) := option_map (fun b j => indR (b j)) avail.

(** A market whose nesting parameters flagged by [flag] are [y]. *)
Definition nested_at (m : market) (flag : nat -> bool) (y : R) : market := with_rho m (fun h => if flag h then y else grho m h).
