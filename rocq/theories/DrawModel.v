(** Model of simulated micro data, registration of micro moments, and agent scores.  Definitions only.

    Source: /repo/pyblp/results/economy_results.py, micro.py, markets/economy_results_market.py. *)
From Coq Require Import Reals List Bool Arith ZArith String.
From Verif Require Import Base BasicsModel MicroModel NestModel.
Import ListNotations.
Local Open Scope R_scope.

(** * simulate_micro_data *)

(** A row of micro data: IDs of the observation and of its market, and within-market indices of the agent, the
    choice, and the second choice if there are any.  economy_results.py 1884-1910.  Data types that conserve memory
    (1828-1834) always have room for these indices and are not modelled. *)
Record drawn := mk_drawn { d_micro : nat; d_market : Z; d_agent : nat; d_choice : nat; d_second : option nat }.

(** Position of an option on an axis of weights: the outside option, if it is on the axis, comes first. *)
Definition choice_index (outside : bool) (a : option nat) : nat :=
  match a with Some j => if outside then S j else j | None => O end.
Definition cell_index (s : shape) (c : cell) : nat * option nat :=
  match s, c with
  | Two o, Single a => (choice_index o a, None)
  | Three o1 o2, Pair a b => (choice_index o1 a, Some (choice_index o2 b))
  | _, _ => (O, None)
  end.

(** A market of the dataset: its ID, weights of the dataset, and probabilities of cells. *)
Definition sampled := (Z * survey * (nat -> cell -> R))%type.

(** Nonzero weights of a market in row-major order, with their indices ([np.nonzero]).
    economy_results.py 1866-1873 and economy_results_market.py 463-468. *)
Definition is_nonzero (x : R) : bool := if Req_EM_T x 0 then false else true.
Definition entries (d : sampled) : list (Z * nat * (nat * option nat) * R) :=
  let '(t, s, q) := d in
  filter (fun e => is_nonzero (snd e))
    (flat_map (fun i => map (fun c => (t, i, cell_index (s_shape s) c, survey_weight s q i c)) (cells (s_shape s) (s_J s))) (seq 0 (s_I s))).

(** [RandomState.choice] with probabilities [p], for a uniform draw [u]: cumulative sums, divided by the last, and
    the first that exceeds the draw (a binary search with side='right').  It raises an exception without
    probabilities. *)
Fixpoint cumsum (acc : R) (p : list R) : list R :=
  match p with
  | [] => []
  | x :: p => (acc + x) :: cumsum (acc + x) p
  end.
Fixpoint searchsorted_right (cdf : list R) (u : R) : nat :=
  match cdf with
  | [] => O
  | c :: cdf => if Rlt_dec u c then O else S (searchsorted_right cdf u)
  end.
Definition random_choice (p : list R) (u : R) : nat :=
  let cdf := cumsum 0 p in
  let top := last cdf 0 in
  searchsorted_right (map (fun c => c / top) cdf) u.

(** Rows for uniform draws [u], with markets in the order in which they are iterated over.
    economy_results.py 1880-1912. *)
Definition simulate_micro_data (order : list sampled) (observations : nat) (u : nat -> R) : option (list drawn) :=
  let all := flat_map entries order in
  let total := sum_over all snd in
  if Req_EM_T total 0 then None else
  Some (map (fun n =>
    let k := random_choice (map (fun e => snd e / total) all) (u n) in
    match nth_error all k with
    | Some (t, i, (j, b), _) => mk_drawn n t i j b
    | None => mk_drawn n 0 0 0 None
    end) (seq 0 observations)).

(** The order of markets.  Without [market_ids], markets are those of the economy in sorted order; otherwise
    [market_ids] is a set, and [iterate] is the order in which Python iterates over it, which for strings depends on
    the process.  economy_results.py 1837-1840; micro.py 139-150. *)
Definition market_order (iterate : list Z -> list Z) (product_market_ids : list Z) (market_ids : option (list Z)) : list Z :=
  match market_ids with
  | None => np_unique product_market_ids
  | Some set => iterate set
  end.

(** * Choice indices of observations *)

(** [weights[:, j]]: indices below zero count from the end.  economy_results_market.py 551-580.  Choices are whole
    numbers (primitives.py 570). *)
Definition take_column {A} (columns : list A) (j : Z) : option A :=
  let n := Z.of_nat (List.length columns) in
  if (0 <=? j)%Z && (j <? n)%Z then nth_error columns (Z.to_nat j)
  else if (- n <=? j)%Z && (j <? 0)%Z then nth_error columns (Z.to_nat (n + j))
  else None.

(** * Registration of micro moments *)

(** Instances are compared by identity, which is a number.  micro.py 115-437. *)
Record data_set := mk_data_set { ds_id : nat; ds_name : string }.
Record part := mk_part { p_id : nat; p_name : string; p_dataset : data_set }.
Record moment := mk_moment { mm_id : nat; mm_name : string; mm_parts : list part; mm_value : list R -> R }.
Inductive moments_error := TwiceThePart | PartsShareName | DatasetsShareName | TwiceTheMoment | MomentsShareName.

(** Checks of a part against an earlier one.  micro.py 362-373 ([twice] is true) and 418-425. *)
Definition check_pair (twice : bool) (part part2 : part) : option moments_error :=
  if twice && Nat.eqb (p_id part) (p_id part2) then Some TwiceThePart
  else if String.eqb (p_name part) (p_name part2) then Some PartsShareName
  else if negb (Nat.eqb (ds_id (p_dataset part)) (ds_id (p_dataset part2)))
          && String.eqb (ds_name (p_dataset part)) (ds_name (p_dataset part2)) then Some DatasetsShareName
  else None.
Fixpoint first_error {A B} (f : A -> option B) (l : list A) : option B :=
  match l with
  | [] => None
  | a :: l => match f a with Some e => Some e | None => first_error f l end
  end.
(** Loops over elements, each compared with all earlier ones. *)
Fixpoint check_earlier {A B} (f : A -> A -> option B) (earlier l : list A) : option B :=
  match l with
  | [] => None
  | a :: l => match first_error (f a) earlier with
              | Some e => Some e
              | None => check_earlier f (earlier ++ [a]) l
              end
  end.
(** [MicroMoment.__init__], as far as parts are concerned. *)
Definition check_moment (m : moment) : option moments_error := check_earlier (check_pair true) [] (mm_parts m).
(** [Moments.__init__].  Parts of all moments are collected without repetition.  micro.py 395-437.  Validation of
    markets and of product IDs of datasets is not modelled. *)
Definition check_moments (m m2 : moment) : option moments_error :=
  if Nat.eqb (mm_id m) (mm_id m2) then Some TwiceTheMoment
  else if String.eqb (mm_name m) (mm_name m2) then Some MomentsShareName
  else None.
Definition collect (parts : list part) (p : part) : list part :=
  if existsb (fun q => Nat.eqb (p_id p) (p_id q)) parts then parts else parts ++ [p].
Definition register (moments : list moment) : moments_error + list part :=
  match check_earlier check_moments [] moments with
  | Some e => inl e
  | None =>
      let parts := fold_left collect (flat_map mm_parts moments) [] in
      match check_earlier (check_pair false) [] parts with
      | Some e => inl e
      | None => inr parts
      end
  end.
(** Values of moments from values of all parts, in the order of [parts].  economy_results.py 1344-1357; the same
    indices are used for Jacobians and covariances (problem.py 1182-1250). *)
Fixpoint index_of (p : part) (parts : list part) : nat :=
  match parts with
  | [] => O
  | q :: parts => if Nat.eqb (p_id p) (p_id q) then O else S (index_of p parts)
  end.
Definition moment_value (parts : list part) (values : list R) (m : moment) : R :=
  mm_value m (map (fun p => nth (index_of p parts) values 0) (mm_parts m)).
(** Defaults for a single part.  micro.py 380-391. *)
Definition default_compute_value (values : nat -> R) : R := values O.
Definition default_compute_gradient (values : nat -> R) (_ : nat) : R := 1.

(** * compute_agent_scores *)

(** Without integration, each agent is one observation with weight one; [q] and [dq] are its probabilities of cells
    and their tangents.  Denominators are those of all agents in markets of the dataset.  [None] is NaN, which users
    are told to replace by any number.  economy_results.py 1609-1657 and economy_results_market.py 477-604. *)
Definition score_denominator (l : list (survey * (nat -> cell -> R) * (nat -> cell -> R))) : R :=
  sum_over l (fun d => survey_denominator (fst (fst d)) (snd (fst d))).
Definition score_denominator_jacobian (l : list (survey * (nat -> cell -> R) * (nat -> cell -> R))) : R :=
  sum_over l (fun d => survey_denominator_jacobian (fst (fst d)) (snd d)).
Definition agent_score (l : list (survey * (nat -> cell -> R) * (nat -> cell -> R))) (s : survey) (q dq : nat -> cell -> R) (i : nat) (c : cell) : option R :=
  let numerator := truncate (s_weight s i c * 1 * q i c) in
  let numerator_jacobian := s_weight s i c * 1 * dq i c in
  if Req_EM_T numerator 0 then None
  else Some (numerator_jacobian / numerator - score_denominator_jacobian l / score_denominator l).
