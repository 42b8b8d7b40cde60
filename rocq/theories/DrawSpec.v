(** What users of simulated micro data, of lists of micro moments, and of agent scores rely on. *)
From Coq Require Import Reals List Bool Arith ZArith String.
From Verif Require Import Base MicroModel NestModel NestSpec DrawModel.
Import ListNotations.
Local Open Scope R_scope.

(** ** Simulated data *)

(** Mass of an agent's choice in a market: survey weight, times integration weight, times probability. *)
Definition mass (d : sampled) (i : nat) (c : cell) : R :=
  let '(_, s, q) := d in Rmax 0 (s_weight s i c * s_agent_weight s i * q i c).
Definition within (d : sampled) (i : nat) (c : cell) : Prop :=
  let '(_, s, _) := d in (i < s_I s)%nat /\ In c (cells (s_shape s) (s_J s)).
Definition total_mass (order : list sampled) : R :=
  sum_over order (fun d => let '(_, s, _) := d in sumn (s_I s) (fun i => sum_over (cells (s_shape s) (s_J s)) (mass d i))).
Definition market_of (d : sampled) : Z := fst (fst d).

(** A row says that an agent made a choice.  Indices are positions on axes of weights. *)
Definition describes (d : sampled) (i : nat) (c : cell) (r : drawn) : Prop :=
  let '(t, s, _) := d in
  d_market r = t /\ d_agent r = i /\
  match s_shape s, c with
  | Two o, Single a => nth_error (options_of o (s_J s)) (d_choice r) = Some a /\ d_second r = None
  | Three o1 o2, Pair a b =>
      nth_error (options_of o1 (s_J s)) (d_choice r) = Some a /\
      exists k, d_second r = Some k /\ nth_error (options_of o2 (s_J s)) k = Some b
  | _, _ => False
  end.

(** Each choice has an interval of uniform draws, of a length in proportion to its mass; rows are numbered, and a row
    says that an agent made a choice exactly when its draw is in the interval of that choice. *)
Record drawn_from (order : list sampled) (lo hi : Z -> nat -> cell -> R) : Prop := {
  df_interval : forall d i c, In d order -> within d i c ->
    0 <= lo (market_of d) i c /\ lo (market_of d) i c <= hi (market_of d) i c /\ hi (market_of d) i c <= 1;
  df_length : forall d i c, In d order -> within d i c ->
    hi (market_of d) i c - lo (market_of d) i c = mass d i c / total_mass order;
  df_rows : forall N u rows, simulate_micro_data order N u = Some rows ->
    List.length rows = N /\ forall n r, nth_error rows n = Some r -> d_micro r = n;
  df_choice : forall N u rows n r d i c, simulate_micro_data order N u = Some rows -> nth_error rows n = Some r ->
    0 <= u n < 1 -> In d order -> within d i c ->
    (describes d i c r <-> lo (market_of d) i c <= u n < hi (market_of d) i c);
  df_some : forall N u rows n r, simulate_micro_data order N u = Some rows -> nth_error rows n = Some r ->
    0 <= u n < 1 -> exists d i c, In d order /\ within d i c /\ 0 < mass d i c /\ describes d i c r
}.

(** Data for a dataset, given what is known about each market. *)
Definition simulated (economy : Z -> survey * (nat -> cell -> R)) (order : list Z) : nat -> (nat -> R) -> option (list drawn) :=
  simulate_micro_data (map (fun t => (t, fst (economy t), snd (economy t))) order).

(** ** Lists of micro moments *)

(** Numbers identify instances. *)
Record identified (moments : list moment) : Prop := {
  id_parts : forall m m2 p p2, In m moments -> In m2 moments -> In p (mm_parts m) -> In p2 (mm_parts m2) -> p_id p = p_id p2 -> p = p2;
  id_datasets : forall m m2 p p2, In m moments -> In m2 moments -> In p (mm_parts m) -> In p2 (mm_parts m2) ->
    ds_id (p_dataset p) = ds_id (p_dataset p2) -> p_dataset p = p_dataset p2
}.
Definition distinct {A B} (f : A -> B) (l : list A) : Prop :=
  forall i j a b, nth_error l i = Some a -> nth_error l j = Some b -> i <> j -> f a <> f b.
Definition used (moments : list moment) (p : part) : Prop := exists m, In m moments /\ In p (mm_parts m).
(** Names tell moments, parts and datasets apart. *)
Record told_apart (moments : list moment) : Prop := {
  ta_instances : distinct mm_id moments;
  ta_moments : distinct mm_name moments;
  ta_parts : forall p p2, used moments p -> used moments p2 -> p_name p = p_name p2 -> p = p2;
  ta_datasets : forall p p2, used moments p -> used moments p2 ->
    ds_name (p_dataset p) = ds_name (p_dataset p2) -> p_dataset p = p_dataset p2
}.

(** ** Scores *)

(** Values of a part are scores where these exist. *)
Definition family := (survey * (nat -> cell -> R) * (nat -> cell -> R))%type.
Definition valued_by_scores (l : list family) (s : survey) (q dq : nat -> cell -> R) : Prop :=
  forall i c x, (i < s_I s)%nat -> In c (cells (s_shape s) (s_J s)) -> agent_score l s q dq i c = Some x -> s_value s i c = x.
(** Mean of a product of scores, where each exists. *)
Definition or_zero (x : option R) : R := match x with Some x => x | None => 0 end.
Definition information (l l2 : list family) (both : list (family * (nat -> cell -> R))) : R :=
  sum_over both (fun d => let '(s, q, dq, dq2) := d in
    survey_sum s (fun i c => s_weight s i c * s_agent_weight s i * q i c *
      or_zero (agent_score l s q dq i c) * or_zero (agent_score l2 s q dq2 i c)))
  / sum_over both (fun d => let '(s, q, _, _) := d in survey_sum s (fun i c => s_weight s i c * s_agent_weight s i * q i c)).

(** Two parameters: their curves at [t] and [t2] pass through the same probabilities.  Each market has a survey, a
    curve of probabilities with its slope, and another one. *)
Section Families.
  Variable ds : list (survey * (R -> nat -> cell -> R) * (nat -> cell -> R) * (R -> nat -> cell -> R) * (nat -> cell -> R)).
  Definition first_family (t : R) : list family := map (fun d => let '(s, qp, dq, _, _) := d in (s, qp t, dq)) ds.
  Definition second_family (t2 : R) : list family := map (fun d => let '(s, _, _, qp2, dq2) := d in (s, qp2 t2, dq2)) ds.
  Definition both_families (t : R) : list (family * (nat -> cell -> R)) := map (fun d => let '(s, qp, dq, _, dq2) := d in (s, qp t, dq, dq2)) ds.
End Families.
