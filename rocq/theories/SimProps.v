(** Theorems about simulations: C52 and C53. *)
From Coq Require Import Reals List Bool Arith Lia Lra.
From Verif Require Import Base SimModel SimSpec SimProofs ResultsSpec.
Import ListNotations.
Local Open Scope nat_scope.

(** ** C52: simulated errors are autocorrelated *)

(** Simulating structural errors ends within [N] passes.  Errors of rows that go back to an initial
    period follow the autoregression, those of initial periods are transformed draws. *)
Theorem C52_started_partial N lag phi transform draws : proper_lags N lag ->
  exists errors, simulate_errors N lag phi transform draws N = Some errors /\
    (forall r, r < N -> started lag r -> ~ is_initial lag r -> autoregressive lag phi draws errors r) /\
    (forall r, r < N -> is_initial lag r -> transformed transform draws errors r).
Proof.
  intro P. destruct (simulate_spec N lag phi transform draws P) as (x & E & A & B & _).
  exists x. split; [exact E|]. split; [exact A|exact B].
Qed.
Print Assumptions C52_started_partial.

(** Second moments of all of these errors are the same. *)
Theorem C52_stationary_partial N K p lag phi S V Ls Lv inverse draws errors : proper_lags N lag ->
  uncorrelated_draws N K p draws S -> lyapunov phi S V -> factor S Ls -> factor V Lv -> left_inverse Ls inverse ->
  (forall k, k < K -> simulate_errors N lag phi (product Lv inverse) (draws k) N = Some (errors k)) ->
  forall r a b, r < N -> started lag r -> a < 2 -> b < 2 ->
    expect K p (fun k => (errors k r a * errors k r b)%R) = V a b.
Proof.
  intros P U L FS FV I H r a b Hr ST Ha Hb.
  exact (started_moments N K p lag phi S V (product Lv inverse) draws P U L (scaling S V Ls Lv inverse FS FV I)
           errors r a b H Hr ST Ha Hb).
Qed.
Print Assumptions C52_stationary_partial.

(** Lags in a circle pass the validation of lags but keep their independent draws, so their errors are
    not autocorrelated. *)
Theorem C52_refuted : exists N lag, proper_lags N lag /\ (exists r, r < N /\ is_initial lag r) /\
  forall phi transform draws, exists errors, simulate_errors N lag phi transform draws N = Some errors /\
    exists r, r < N /\ ~ is_initial lag r /\ (forall c, errors r c = draws r c) /\
      ((phi 0%nat 0%nat * draws (lag r) 0%nat + phi 0%nat 1%nat * draws (lag r) 1%nat <> 0)%R -> ~ autoregressive lag phi draws errors r).
Proof.
  set (lag := fun r => match r with 1 => 2 | 2 => 1 | _ => 0 end). exists 3, lag.
  assert (P : proper_lags 3 lag).
  { unfold proper_lags, is_initial, lag. split.
    - intros [|[|[|r]]] H; lia.
    - intros [|[|[|i]]] [|[|[|j]]] H1 H2 N1 N2 E; try lia. }
  split; [exact P|]. split; [exists 0; split; [lia|reflexivity]|]. intros phi transform draws.
  destruct (simulate_spec 3 lag phi transform draws P) as (x & E & _ & _ & A). exists x. split; [exact E|].
  assert (NS : forall r, (r = 1 \/ r = 2) -> ~ started lag r).
  { intros r Hr [k Hk]. assert (G : Nat.iter k lag r = 1 \/ Nat.iter k lag r = 2).
    { clear Hk. induction k as [|k IH]; [exact Hr|]. change (Nat.iter (S k) lag r) with (lag (Nat.iter k lag r)).
      destruct IH as [E1|E1]; rewrite E1; [right|left]; reflexivity. }
    unfold is_initial in Hk. destruct G as [G|G]; rewrite G in Hk; discriminate. }
  assert (A1 : forall c, x 1 c = draws 1 c) by (intro c; apply A; [lia|apply NS; tauto]).
  assert (A2 : forall c, x 2 c = draws 2 c) by (intro c; apply A; [lia|apply NS; tauto]).
  exists 1. split; [lia|]. split; [unfold is_initial, lag; lia|]. split; [exact A1|].
  intros NZ R. apply NZ. specialize (R 0). change (lag 1) with 2 in *. rewrite A1, !A2 in R. lra.
Qed.
Print Assumptions C52_refuted.

(** Two products over three periods, one of them entering late. *)
Example C52_applies : let lag := fun r => match r with 2 => 0 | 3 => 2 | 4 => 1 | r => r end in
  proper_lags 5 lag /\ (forall r, r < 5 -> started lag r) /\ ~ is_initial lag 3.
Proof.
  cbv zeta. split; [|split].
  - unfold proper_lags, is_initial. split.
    + intros [|[|[|[|[|r]]]]] H; lia.
    + intros [|[|[|[|[|i]]]]] [|[|[|[|[|j]]]]] H1 H2 N1 N2 E; try lia.
  - intros [|[|[|[|[|r]]]]] H; try lia; [exists 0|exists 0|exists 1|exists 2|exists 1]; reflexivity.
  - unfold is_initial. lia.
Qed.

(** Unit variances and [phi] one half: stationary variances are 4/3.  Four equally likely outcomes of two
    draws, for one row. *)
Example C52_stationary_applies :
  let phi := fun a b : nat => if Nat.eqb a b then (1 / 2)%R else 0%R in
  let S := fun a b : nat => if Nat.eqb a b then 1%R else 0%R in
  let V := fun a b : nat => if Nat.eqb a b then (4 / 3)%R else 0%R in
  let sign := fun k => match k with 0 | 1 => 1%R | _ => (-1)%R end in
  let sign' := fun k => match k with 0 | 2 => 1%R | _ => (-1)%R end in
  uncorrelated_draws 1 4 (fun _ => (1 / 4)%R) (fun k _ c => match c with 0 => sign k | _ => sign' k end) S /\
  lyapunov phi S V /\ factor S (fun a b => if Nat.eqb a b then 1%R else 0%R) /\
  factor V (fun a b => if Nat.eqb a b then sqrt (4 / 3) else 0%R) /\
  left_inverse (fun a b => if Nat.eqb a b then 1%R else 0%R) (fun a b => if Nat.eqb a b then 1%R else 0%R).
Proof.
  cbv zeta. assert (Q : (sqrt (4 / 3) * sqrt (4 / 3) = 4 / 3)%R) by (apply sqrt_sqrt; lra).
  unfold uncorrelated_draws, lyapunov, factor, left_inverse, expect.
  split; [|split; [|split; [|split]]].
  - intros [|r] [|s] [|[|a]] [|[|b]] Hr Hs Ha Hb; try lia; cbn; lra.
  - intros [|[|a]] [|[|b]] Ha Hb; try lia; cbn; lra.
  - intros [|[|a]] [|[|b]] Ha Hb; try lia; cbn; lra.
  - intros [|[|a]] [|[|b]] Ha Hb; try lia; cbn; lra.
  - intros [|[|a]] [|[|b]] Ha Hb; try lia; cbn; lra.
Qed.

(** ** C53: replaced exogenous characteristics rationalise the data *)

(** With the replaced variables, characteristics times parameters plus the error is the computed delta
    (and the computed cost).  Nothing else changes: no other variable, no column of X2, and only one
    column of X1 and of X3. *)
Theorem C53_replaced untransformed X1 X2 X3 beta gamma prices shares n1 n3 d delta xi costs omega d' :
  recognises untransformed -> (forall c, In c (X1 ++ X2 ++ X3) -> column_ok c) ->
  List.length beta = List.length X1 -> List.length gamma = List.length X3 ->
  replace_exogenous untransformed X1 X2 X3 beta gamma prices shares n1 n3 d delta xi costs omega = Some d' ->
  (linear_index X1 beta d' + xi)%R = delta /\
  (X3 <> [] -> (linear_index X3 gamma d' + omega)%R = costs) /\
  (forall c, In c X2 -> value c d' = value c d) /\
  (exists k, k < List.length X1 /\ forall j c0, j < List.length X1 -> j <> k -> value (nth j X1 c0) d' = value (nth j X1 c0) d) /\
  (exists k, forall j c0, j < List.length X3 -> j <> k -> value (nth j X3 c0) d' = value (nth j X3 c0) d) /\
  (forall y, y <> n1 -> y <> n3 -> d' y = d y) /\ n1 <> prices /\ (X3 <> [] -> n3 <> shares).
Proof. exact (replace_spec untransformed X1 X2 X3 beta gamma prices shares n1 n3 d delta xi costs omega d'). Qed.
Print Assumptions C53_replaced.

(** A constant, a characteristic 2 and its price 0 in X1, a constant and a cost shifter 3 in X3. *)
Example C53_applies :
  let one := Column [] (fun _ => 1%R) in let of := fun x => Column [x] (fun d => d x) in
  let untransformed := fun x c => match names c with [y] => Nat.eqb x y | _ => false end in
  exists d', replace_exogenous untransformed [one; of 0; of 2] [of 0] [one; of 3] [1; -2; 3]%R [1; 2]%R 0 1 2 3
    (fun _ => 1%R) 5%R 0%R 7%R 1%R = Some d' /\ d' 2 = 2%R /\ d' 3 = (5 / 2)%R.
Proof.
  cbv zeta. unfold replace_exogenous, validate_name. cbn -[Req_EM_T override].
  destruct (Req_EM_T 3 0); [lra|]. destruct (Req_EM_T 2 0); [lra|]. eexists. split; [reflexivity|].
  unfold override, replacement, index_of_row. cbn. split; lra.
Qed.
