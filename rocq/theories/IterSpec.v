(** Vocabulary for what an observer of the contraction can say about a run of a routine. *)
From Coq Require Import Reals List Bool Arith.
From Verif Require Import Base FltModel IterModel.
Import ListNotations.

(** The most recent values produced by the contraction, or the starting values. *)
Definition latest (init : fvec) (log : list event) : fvec :=
  match log with [] => init | (_, (y, _)) :: _ => y end.

(** Every recorded result is what the function returned when given the recorded argument and the
    true number of evaluations. *)
Fixpoint genuine (f : contraction_fn) (log : list event) : Prop :=
  match log with
  | [] => True
  | (x, r) :: l => (exists it, r = f l it (S (length l)) x) /\ genuine f l
  end.

(** Plain iteration: every evaluation is made at the values produced by the one before. *)
Fixpoint chained (init : fvec) (log : list event) : Prop :=
  match log with
  | [] => True
  | (x, _) :: l => x = latest init l /\ chained init l
  end.

Definition finite_event (e : event) : Prop :=
  Forall (fun a => ffin a = true) (fst (snd e)) /\
  match snd (snd e) with None => True | Some w => Forall (fun a => ffin a = true) w end.

(** The weighted norm of the change is strictly below atol + rtol * (weighted norm of the values). *)
Definition below_tolerance (t : tolerance) (e : event) : Prop :=
  let '(x, (y, w)) := e in
  let scale := fun z => match w with None => z | Some v => vzip fmul v z end in
  let tol := if fltb (Num 0) (t_rtol t)
             then fadd (t_atol t) (fmul (t_rtol t) (t_norm t (scale y))) else t_atol t in
  fltb (t_norm t (scale (vzip fsub y x))) tol = true.

Local Open Scope R_scope.

(** The point reached from x by SQUAREM when x1 and x2 are the next two iterates: the weights of
    the three points are those of a squared step of length -t, and they sum to one. *)
Definition extrapolated (t : R) (a b c d : list R) : Prop :=
  length d = length a /\
  forall i, (i < length a)%nat ->
  nth i d 0 = ((1 + t) ^ 2 * nth i a 0 - 2 * t * (1 + t) * nth i b 0 + t ^ 2 * nth i c 0)%R.

(** Step lengths of the three schemes of Varadhan and Roland, given sums of squares and products of
    first differences (r) and second differences (v). *)
Definition scheme_step (scheme : nat) (rr rv vv raw : R) : Prop :=
  (scheme = 1%nat /\ vv <> 0 /\ raw = rv / vv)%R \/
  (scheme = 2%nat /\ rv <> 0 /\ raw = rr / rv)%R \/
  (scheme = 3%nat /\ vv <> 0 /\ raw = - sqrt (rr / vv))%R.

Definition first_difference (a b : list R) (i : nat) : R := (nth i b 0 - nth i a 0)%R.
Definition second_difference (a b c : list R) (i : nat) : R :=
  (nth i c 0 - 2 * nth i b 0 + nth i a 0)%R.

Definition bounded_step (scheme : nat) (lo hi : R) (a b c : list R) (t : R) : Prop :=
  forall raw, let n := length a in
  scheme_step scheme
    (sumn n (fun i => first_difference a b i ^ 2))
    (sumn n (fun i => first_difference a b i * second_difference a b c i))
    (sumn n (fun i => second_difference a b c i ^ 2)) raw ->
  t = (- Rmax lo (Rmin hi (- raw)))%R.

(** A cycle of SQUAREM: where its third evaluation is made. *)
Definition cycle (scheme : nat) (s : step) (x x1 x2 x3 : fvec) : Prop :=
  forall a b c, x = map Num a -> x1 = map Num b -> x2 = map Num c ->
  length b = length a -> length c = length a ->
  (forall lo hi, st_before s = mk_bounds (Num lo) (Num hi) ->
     forall t, st_alpha s = Num t -> bounded_step scheme lo hi a b c t) /\
  (forall t, st_alpha s = Num t -> exists d, x3 = map Num d /\ extrapolated t a b c d).

(** Evaluations in chronological order, three for each step that was taken. *)
Inductive squared (scheme : nat) : fvec -> list event -> list step -> Prop :=
| squared_stop x : squared scheme x [] []
| squared_first x r : squared scheme x [(x, r)] []
| squared_second x x1 w1 r : squared scheme x [(x, (x1, w1)); (x1, r)] []
| squared_third x x1 w1 x2 w2 x3 x4 w4 s events steps :
    cycle scheme s x x1 x2 x3 -> squared scheme x4 events steps ->
    squared scheme x ((x, (x1, w1)) :: (x1, (x2, w2)) :: (x3, (x4, w4)) :: events) (s :: steps).

(** Every coordinate approaches its fixed point at the same rate. *)
Definition uniform_rate (f : contraction_fn) (star : list R) (rate : R) : Prop :=
  forall log it ev a, length a = length star ->
  exists b, f log it ev (map Num a) = (map Num b, None) /\ length b = length star /\
    forall i, (i < length star)%nat ->
    (nth i b 0 - nth i star 0 = rate * (nth i a 0 - nth i star 0))%R.
