(** Progress of fixed point iteration as it is displayed after each evaluation of the contraction.  pyblp/markets/market.py 489-541 (mean
    utilities) and 767-811 (prices).  Definitions only. *)
From Coq Require Import Ascii String Reals List Arith Bool.
From Verif Require Import FltModel TableModel FormatModel ProgressModel DisplayModel SummaryModel DemandModel.
Import ListNotations.

(** An evaluation of the contraction: vectors before and after it, counts, and which shares are clipped. *)
Record sweep := mk_sweep { x_before : fvec; x_after : fvec; sweep_iterations : nat; sweep_evaluations : nat; sweep_clipped : list bool }.
(** What is solved for: mean utilities, given the type of fixed point and whether a bound on shares is finite, or prices. *)
Inductive solved := MeanUtilities (fp_type : string) (bounded : bool) | Prices.
(** [np.max(np.abs(x - x0))].  market.py 522, 795. *)
Definition change (e : sweep) : flt := array_max (map absolute (vsub (x_after e) (x_before e))).
(** Labels.  market.py 502-506, 513-521 and 780-784, 793-794. *)
Definition sweep_header (s : solved) : list label :=
  [[[]; lit "Market"]; [lit "Contraction"; lit "Iterations"]; [lit "Contraction"; lit "Evaluations"]] ++
  match s with
  | MeanUtilities fp_type bounded => (if bounded then [[lit "Clipped"; lit "Shares"]] else []) ++
      [[if DemandModel.contains "linear" fp_type then lit "Delta" else lit "Exp Delta"; lit "Max Norm"]]
  | Prices => [[lit "Prices"; lit "Max Norm"]]
  end ++ [[lit "Max Norm"; lit "Improvement"]].
(** Cells, given the smallest norm so far.  market.py 507-511, 515-528 and 785-789, 796-801. *)
Definition sweep_cells (digits : nat) (s : solved) (market : text) (e : sweep) (smallest : flt) : list text :=
  [market; number_of (sweep_iterations e); number_of (sweep_evaluations e)] ++
  match s with MeanUtilities _ true => [number_of (count_true (sweep_clipped e))] | _ => [] end ++
  [format_number digits (change e); improvement_cell digits smallest (change e)].
(** [if improvement > 0: smallest_max_norm = max_norm].  market.py 529-530, 802-803. *)
Definition next_norm (smallest norm : flt) : flt := if fltb (Num 0) (fsub smallest norm) then norm else smallest.
(** [(evaluations - 1) % 50 == 0].  market.py 533, 806. *)
Definition repeats_header (e : sweep) : bool := (sweep_evaluations e - 1) mod 50 =? 0.
(** Headers, if they are included, and cells of all evaluations in a market, of which the smallest norm is at first infinity.  market.py 494, 772. *)
Fixpoint sweeps_from (digits : nat) (s : solved) (market : text) (smallest : flt) (l : list sweep) : list (bool * list text) :=
  match l with
  | [] => []
  | e :: l' => (repeats_header e, sweep_cells digits s market e smallest) :: sweeps_from digits s market (next_norm smallest (change e)) l'
  end.
Definition sweeps_displayed digits s market := sweeps_from digits s market PInf.
