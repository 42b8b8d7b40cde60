(** C117: importance sampling is unbiased. *)
From Coq Require Import Reals Lra Lia List Bool Arith FunctionalExtensionality.
From Verif Require Import Base SchedModel ProbProofs ImpSpec ImpProofs.
Import ListNotations.
Local Open Scope R_scope.

(** If the inside share is that of the population from which candidates are drawn, then weighted sums over sampled
    agents are right on average, given that enough candidates are accepted. *)
Theorem C117_unbiased : forall n f P U ar choose K draws h N,
  uniform_law (fun c => exists x, (x < n)%nat /\ c = P x / ar) U -> fair_choice choose K draws N -> (0 < draws)%nat ->
  1 <= ar -> (forall x, (x < n)%nat -> 0 < P x) -> 0 < population_mean n f P ->
  candidates_mean U n f N (weighted_sum choose K draws ar (population_mean n f P) P h) =
  population_mean n f h * candidates_mean U n f N (succeeds choose K draws ar (population_mean n f P) P).
Proof.
  intros n f P U ar choose K draws h N HU HK Hd Ha HP Hm. rewrite (importance_unbiased n f P U ar _ choose K draws h N HU HK Hd Ha HP Hm).
  f_equal. field. lra.
Qed.
Print Assumptions C117_unbiased.

(** In particular, sampled agents predict the market's shares on average, and their weights sum to one. *)
Theorem C117_shares : forall n f J s U ar choose K draws N,
  let P x := sumn J (s x) in
  let share j := population_mean n f (fun x => s x j) in
  uniform_law (fun c => exists x, (x < n)%nat /\ c = P x / ar) U -> fair_choice choose K draws N -> (0 < draws)%nat ->
  1 <= ar -> sumn n f = 1 -> (forall x, (x < n)%nat -> 0 <= f x) -> (forall x, (x < n)%nat -> 0 < P x) ->
  let success := candidates_mean U n f N (succeeds choose K draws ar (sumn J share) P) in
  (forall j, (j < J)%nat -> candidates_mean U n f N (weighted_sum choose K draws ar (sumn J share) P (fun x => s x j)) = share j * success) /\
  candidates_mean U n f N (weighted_sum choose K draws ar (sumn J share) P (fun _ => 1)) = success.
Proof.
  intros n f J s U ar choose K draws N P share HU HK Hd Ha H1 H0 HP success.
  assert (Hs : sumn J share = population_mean n f P).
  { unfold share, population_mean, P. rewrite sumn_swap. apply sumn_ext. intros x _. apply sumn_scal. }
  assert (Hm : 0 < population_mean n f P).
  { assert (L : 0 <= population_mean n f P) by (apply sumn_nonneg; intros x Hx; apply Rmult_le_pos; [auto|apply Rlt_le; auto]).
    destruct L as [L|L]; [exact L|exfalso]. assert (Z : forall x, (x < n)%nat -> f x = 0).
    { intros x Hx. assert (G := sumn_ge_term n (fun x => f x * P x) x (fun k Hk => Rmult_le_pos _ _ (H0 k Hk) (Rlt_le _ _ (HP k Hk))) Hx).
      unfold population_mean in L. cbv beta in G. rewrite <- L in G. specialize (H0 x Hx). specialize (HP x Hx). nra. }
    rewrite (sumn_ext n f (fun _ => 0)), sumn_zero in H1 by exact Z. lra. }
  unfold success. rewrite Hs. split.
  - intros j Hj. exact (C117_unbiased n f P U ar choose K draws (fun x => s x j) N HU HK Hd Ha HP Hm).
  - rewrite (C117_unbiased n f P U ar choose K draws (fun _ => 1) N HU HK Hd Ha HP Hm).
    replace (population_mean n f (fun _ => 1)) with (sumn n f); [rewrite H1; ring|]. unfold population_mean. apply sumn_ext. intros; ring.
Qed.
Print Assumptions C117_shares.

(** Integration weights of candidates are ignored, also if candidates are the problem's own agents (the default).  There
    are agents whose weighted probabilities match the inside share, and whose weighted sum of [h] is not what sampled
    agents give, whatever cutoffs and choices. *)
Theorem C117_quadrature_candidates : exists (v P h : nat -> R),
  (forall i, (i < 2)%nat -> 0 < v i /\ 0 < P i < 1) /\ sumn 2 v = 1 /\
  forall (us : list R) choose K k w,
    fair_choice choose K 2 2 -> (k < K)%nat ->
    weights choose 2 1 (sumn 2 (fun i => v i * P i)) P [0; 1]%nat us k = Some w ->
    sumn 2 (fun i => w i * h i) <> sumn 2 (fun i => v i * h i).
Proof.
  exists (fun i => if Nat.eqb i 0 then 3 / 4 else 1 / 4), (fun _ => / 2), (fun i => INR i).
  split; [intros i Hi; destruct (Nat.eqb i 0); lra|]. split; [cbn; lra|].
  intros us choose K k w HK Hk. rewrite weights_eq. destruct HK as [K0 H].
  destruct (H _ (NoDup_accepted 1 (fun _ => / 2) [0; 1]%nat us) (length_accepted 1 (fun _ => / 2) [0; 1]%nat us)) as [H1 H2].
  set (l := filter _ _) in *. destruct (le_lt_dec 2 (List.length l)) as [L|L]; [|rewrite (H1 L k Hk); discriminate].
  destruct (H2 L) as (sampled & S1 & S2). destruct (S1 k Hk) as [-> _].
  assert (El : l = [0; 1]%nat).
  { revert L. unfold l. cbn. repeat destruct (accepts _ _ _ _); cbn; intro L; try lia. reflexivity. }
  (* with two of two chosen, every choice contains both *)
  assert (B : forall i, In i l -> existsb (Nat.eqb i) (sampled k) = true).
  { intros i Hi. specialize (S2 i Hi). rewrite El in S2. change (INR (List.length [0; 1]%nat)) with (INR 2) in S2.
    destruct (existsb (Nat.eqb i) (sampled k)) eqn:X; [reflexivity|exfalso].
    assert (Q : sumn K (fun k => if existsb (Nat.eqb i) (sampled k) then 1 else 0) < sumn K (fun _ => 1)).
    { apply sumn_lt; [intros a _; cbv beta; destruct (existsb (Nat.eqb i) (sampled a)); lra|]. exists k. split; [exact Hk|cbv beta; rewrite X; lra]. }
    rewrite S2, sumn_const in Q. replace (INR K * INR 2 / INR 2) with (INR K) in Q by (cbn [INR]; field). lra. }
  intros E. injection E as <-. cbn [sumn nth]. rewrite (B 0%nat), (B 1%nat) by (rewrite El; cbn; auto). cbn. lra.
Qed.
Print Assumptions C117_quadrature_candidates.

(** Two types of agents, of which three quarters buy with probability one half and the others with probability one
    quarter; cutoffs from a grid; any number of candidates, of which one is sampled.  One of at most N! equally likely
    choices: the k-th element modulo the number of elements. *)
Definition grid (f : R -> R) : R := (f 0 + f (/ 4) + f (/ 2) + f (3 / 4)) / 4.
Lemma grid_law : uniform_law (fun c => exists x, (x < 2)%nat /\ c = (if Nat.eqb x 0 then / 2 else / 4) / 1) grid.
Proof.
  split; intros; unfold grid; try field.
  destruct H as (x & _ & ->). destruct (Nat.eqb x 0); repeat (destruct (Rlt_dec _ _); try lra).
Qed.
Definition pick (k : nat) (l : list nat) : option (list nat) :=
  match l with [] => None | _ => Some [nth (k mod List.length l) l O] end.

Lemma mod_count m p q : (p < m)%nat -> sumn (q * m) (fun k => if Nat.eqb p (k mod m) then 1 else 0) = INR q.
Proof.
  intro Hp. induction q as [|q IH]; [reflexivity|].
  change (S q * m)%nat with (m + q * m)%nat. rewrite (Nat.add_comm m), sumn_app, IH.
  rewrite (sumn_ext m _ (fun k => if Nat.eqb k p then 1 else 0)).
  2: { intros k Hk. rewrite Nat.add_comm, Nat.mod_add, Nat.mod_small by lia. rewrite Nat.eqb_sym. reflexivity. }
  rewrite (sumn_delta m p (fun _ => 1) Hp), S_INR. reflexivity.
Qed.
Lemma divides_fact m N : (0 < m <= N)%nat -> exists q, fact N = (q * m)%nat.
Proof.
  induction N as [|N IH]; intro H; [lia|]. destruct (Nat.eq_dec m (S N)) as [->|].
  - exists (fact N). change (fact (S N)) with (S N * fact N)%nat. apply Nat.mul_comm.
  - destruct IH as [q E]; [lia|]. exists (S N * q)%nat. change (fact (S N)) with (S N * fact N)%nat. rewrite E. ring.
Qed.
Lemma pick_fair N : fair_choice pick (fact N) 1 N.
Proof.
  split; [apply lt_O_fact|]. intros l ND L. split; [destruct l; cbn; [reflexivity|lia]|]. intros L1.
  exists (fun k => [nth (k mod List.length l) l O]). assert (Hm : forall k, (k mod List.length l < List.length l)%nat) by (intro; apply Nat.mod_upper_bound; lia).
  split.
  - intros k _. split; [destruct l; [cbn in L1; lia|reflexivity]|]. intros x [<-|[]]. apply nth_In, Hm.
  - intros i Hi. destruct (In_nth l i O Hi) as (p & Hp & Ep). destruct (divides_fact (List.length l) N ltac:(lia)) as [q ->].
    rewrite (sumn_ext _ _ (fun k => if Nat.eqb p (k mod List.length l) then 1 else 0)).
    + rewrite mod_count by exact Hp. rewrite mult_INR. cbn [INR]. field. apply not_0_INR. lia.
    + intros k _. cbn [existsb]. rewrite orb_false_r. rewrite <- Ep.
      destruct (Nat.eqb_spec p (k mod List.length l)) as [->|X]; [rewrite Nat.eqb_refl; reflexivity|].
      destruct (Nat.eqb_spec (nth p l O) (nth (k mod List.length l) l O)) as [Y|]; [|reflexivity].
      exfalso. apply X. exact (proj1 (NoDup_nth l O) ND p _ Hp (Hm k) Y).
Qed.
Example C117_applies : forall N,
  let f x := if Nat.eqb x 0 then 3 / 4 else / 4 in
  let s (x j : nat) := if Nat.eqb x 0 then / 4 else / 8 in
  let P x := sumn 2 (s x) in
  uniform_law (fun c => exists x, (x < 2)%nat /\ c = P x / 1) grid /\ fair_choice pick (fact N) 1 N /\ (0 < 1)%nat /\ 1 <= 1 /\ sumn 2 f = 1 /\
  (forall x, (x < 2)%nat -> 0 <= f x) /\ (forall x, (x < 2)%nat -> 0 < P x) /\
  candidates_mean grid 2 f 1 (succeeds pick (fact 1) 1 1 (population_mean 2 f P) P) = 7 / 16.
Proof.
  intros N f s P. assert (EP : forall x, P x = if Nat.eqb x 0 then / 2 else / 4) by (intro x; unfold P, s; cbn [sumn]; destruct (Nat.eqb x 0); lra).
  split; [replace P with (fun x => if Nat.eqb x 0 then / 2 else / 4) by (apply functional_extensionality; intro; symmetry; apply EP); exact grid_law|].
  split; [apply pick_fair|]. split; [lia|]. split; [lra|]. split; [unfold f; cbn; lra|].
  split; [intros x _; unfold f; destruct (Nat.eqb x 0); lra|]. split; [intros x _; rewrite EP; destruct (Nat.eqb x 0); lra|].
  cbn [candidates_mean sumn]. unfold grid.
  rewrite !(succeeds_eq pick (fact 1) 1 1 1 _ P (pick_fair 1)) by (lia || reflexivity).
  cbn [accepted_count]. rewrite !EP. unfold f. cbn [Nat.eqb].
  repeat (destruct (Rlt_dec _ _); try lra); cbn [Nat.leb]; lra.
Qed.
