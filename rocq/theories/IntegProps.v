(** Theorems about integration nodes and weights: C38, C39, C40 and C41. *)
From Coq Require Import Reals Lra Lia ZArith List Bool Arith Permutation Sorted FunctionalExtensionality.
From Verif Require Import Base IntegModel IntegSpec IntegProofs.
Import ListNotations.
Local Open Scope R_scope.

(* ---------- C38 ---------- *)

(** There is a block for each ID, with as many nodes as weights, which sum to one; if nodes are drawn, there are as many
    as the configured size and weights are equal. *)
Theorem C38_blocks {I} S g ppf t fuel s dimensions size (ids : list I) state is xs ws :
  good_generator g -> (1 <= dimensions)%nat -> (1 <= size)%nat -> tables_for t s ->
  build_many S g ppf t fuel s dimensions size 0 ids state = Some (is, xs, ws) ->
  exists blocks : list (list (list R) * list R), length blocks = length ids /\
    is = concat (map (fun p => repeat (fst p) (length (snd (snd p)))) (combine ids blocks)) /\
    xs = concat (map fst blocks) /\ ws = concat (map snd blocks) /\
    Forall (fun b => length (fst b) = length (snd b) /\ suml (fun w => w) (snd b) = 1 /\
                     (sampling s = true -> snd b = repeat (1 / INR size) size)) blocks.
Proof.
  intros G D N T H. destruct (build_many_blocks S g ppf t fuel G s dimensions size D N T ids 0 state is xs ws H) as [b [L [E1 [E2 [E3 F]]]]].
  exists b. repeat (split; [assumption|]). eapply Forall_impl; [|exact F]. intros a [A1 [A2 A3]]. rewrite weights_sum_suml in A2. tauto.
Qed.
Print Assumptions C38_blocks.

(** Halton nodes of the k-th market are those of consecutive integers after the ones of markets before it.  Without
    scrambling all markets use one sequence. *)
Theorem C38_halton {I} S g ppf t fuel discard scramble dimensions size (ids : list I) state is xs ws :
  good_generator g -> (1 <= size)%nat ->
  build_many S g ppf t fuel (Halton discard scramble) dimensions size 0 ids state = Some (is, xs, ws) ->
  exists p : nat -> nat -> nat -> nat -> nat,
    (forall k d b e, nth_error primes d = Some b -> (d < dimensions)%nat -> (e < digits b)%nat -> digit_permutation b (p k d e)) /\
    (scramble = false -> p = fun _ _ => unscrambled) /\
    forall k q d b, (k < length ids)%nat -> (q < size)%nat -> (d < dimensions)%nat -> nth_error primes d = Some b ->
      nth d (nth (k * size + q) xs []) 0 = ppf (radical_inverse b (digits b) (p k d) (discard + k * size + q)).
Proof.
  intros G N H. destruct (build_many_halton S g ppf t fuel G discard scramble dimensions size N ids 0 state is xs ws H) as [p [P1 [P2 P3]]].
  exists p. split; [exact P1|]. split; [exact P2|]. intros k q d b Hk Hq Hd Hb. rewrite (P3 k q d b Hk Hq Hd Hb).
  f_equal. f_equal. lia.
Qed.
Print Assumptions C38_halton.

(** With scrambling, which is the default, each market has its own permutations, so blocks are not segments of one
    sequence: markets can even have the same nodes. *)
Theorem C38_refuted ppf t : exists (g : generator nat) is xs ws, good_generator g /\
  build_many nat g ppf t 0 (Halton 2 true) 1 1 0 [0%nat; 1%nat] 0%nat = Some (is, xs, ws) /\ nth 0 xs [] = nth 1 xs [].
Proof.
  exists {| permutation := fun state n => (if Nat.eqb state 53 then rev (seq 0 n) else seq 0 n, S state);
            uniform := fun state n => (repeat 0 n, state); normal := fun state n d => (repeat (repeat 0 d) n, state) |}.
  do 3 eexists. split; [|split; [lazy -[IZR Rmult Rplus Rdiv Rinv INR]; reflexivity|reflexivity]].
  split; [|split].
  - intros state n. unfold permutes. cbn [permutation fst]. destruct (Nat.eqb state 53); [|reflexivity].
    apply Permutation_sym, Permutation_rev.
  - intros state n. split; [apply repeat_length|]. apply Forall_forall. intros u Hu. apply repeat_spec in Hu. subst u. lra.
  - intros state n d. apply repeat_length.
Qed.
Print Assumptions C38_refuted.

(** A generator and tables for examples. *)
Definition plain : generator nat :=
  {| permutation := fun state n => (seq 0 n, state); uniform := fun state n => (repeat 0 n, state);
     normal := fun state n d => (repeat (repeat 0 d) n, state) |}.
Lemma plain_good : good_generator plain.
Proof.
  split; [|split].
  - intros state n. apply Permutation_refl.
  - intros state n. split; [apply repeat_length|]. apply Forall_forall. intros u Hu. apply repeat_spec in Hu. subst u. lra.
  - intros state n d. apply repeat_length.
Qed.
(** Three levels of Gauss-Hermite rules. *)
Definition three_levels : quadrature_tables :=
  {| node_data := [[0]; [1]; [0; sqrt 3]]; weight_data := [[1]; [1 / 2]; [2 / 3; 1 / 6]] |}.
Lemma three_sound : sound_tables three_levels false.
Proof.
  intros level x w L H. assert (P : 0 < sqrt 3) by (apply sqrt_lt_R0; lra).
  destruct level as [|[|[|[|level]]]]; [lia|..]; cbn in H; try (injection H as <- <-); try (destruct level; discriminate).
  - split; [reflexivity|]. split; [exists []; split; [reflexivity|constructor]|]. unfold univariate, whole_line. cbn.
    destruct (Req_EM_T 0 0); [|lra]. cbn. lra.
  - split; [reflexivity|]. split; [repeat constructor; lra|]. unfold univariate, whole_line. cbn.
    destruct (Req_EM_T 1 0); [lra|]. cbn. lra.
  - split; [reflexivity|]. split; [exists [sqrt 3]; split; [reflexivity|repeat constructor; exact P]|]. unfold univariate, whole_line. cbn.
    destruct (Req_EM_T 0 0); [|lra]. destruct (Req_EM_T (sqrt 3) 0); [lra|]. cbn. lra.
Qed.
Example C38_applies : exists is xs ws, good_generator plain /\ tables_for three_levels (ProductRule false) /\
  build_many nat plain (fun x => x) three_levels 0 (ProductRule false) 2 2 0 [5; 7]%nat 0%nat = Some (is, xs, ws) /\
  is = [5; 5; 5; 5; 7; 7; 7; 7]%nat /\ (exists is xs ws, build_many nat plain (fun x => x) three_levels 0 (Halton 3 false) 2 4 0 [5; 7]%nat 0%nat = Some (is, xs, ws)).
Proof.
  do 3 eexists. split; [exact plain_good|]. split; [exact three_sound|]. split; [reflexivity|]. split; [reflexivity|].
  do 3 eexists. lazy -[IZR Rmult Rplus Rdiv Rinv INR]. reflexivity.
Qed.

(* ---------- C39 ---------- *)

(** Halton nodes are quantiles of points that, in each dimension, are in the unit interval, are distinct and of which any
    b^k for consecutive integers, from a multiple of b^k on, have one point in each of b^k subintervals.  This holds with
    and without scrambling.  Integers are below 2^44. *)
Theorem C39_points S g ppf dimensions size start scramble state nodes weights state' : good_generator g ->
  (Z.of_nat (start + size) <= 2 ^ 44)%Z ->
  halton S g ppf dimensions size start scramble state = Some ((nodes, weights), state') ->
  exists point : nat -> nat -> R,
    (forall q d, (q < size)%nat -> (d < dimensions)%nat -> nth d (nth q nodes []) 0 = ppf (point q d)) /\
    forall d, (d < dimensions)%nat -> exists b, nth_error primes d = Some b /\
      (forall q, (q < size)%nat -> 0 <= point q d < 1) /\
      (forall q r, (q < size)%nat -> (r < size)%nat -> point q d = point r d -> q = r) /\
      (forall k m c, (k <= digits b)%nat -> (start <= m * b ^ k)%nat -> ((m + 1) * b ^ k <= start + size)%nat -> (c < b ^ k)%nat ->
        exactly_one (fun q => (m * b ^ k <= start + q < (m + 1) * b ^ k)%nat /\ in_stratum (b ^ k) c (point q d))) /\
      (scramble = false -> forall q, (q < size)%nat -> point q d = radical_inverse b (digits b) unscrambled (start + q)).
Proof.
  intros G B H. destruct (halton_nodes S g G _ _ _ _ _ _ _ _ _ H) as [L [W [Dim [point [p [V Q]]]]]].
  exists point. split; [exact V|]. intros d Hd.
  destruct (nth_error primes d) as [b|] eqn:Hb; [|apply nth_error_None in Hb; change (length primes) with 168%nat in Hb; lia].
  exists b. split; [reflexivity|].
  assert (Fn : nth_error (firstn dimensions primes) d = Some b).
  { rewrite <- Hb. clear - Hd. revert d Hd. generalize primes. induction dimensions as [|n IH]; intros [|a l] [|d] Hd; cbn; try lia; try reflexivity. apply IH. lia. }
  destruct (Q d b Fn) as [P [U R]]. assert (B2 := primes_2 d b Hb).
  split; [|split; [|split]].
  - intros q Hq. rewrite (R q Hq). apply radical_unit; assumption.
  - intros q r Hq Hr E. rewrite (R q Hq), (R r Hr) in E.
    apply radical_distinct in E; [lia|exact B2|exact P|apply (primes_digits d b Hb); lia|apply (primes_digits d b Hb); lia].
  - intros k m c Hk Hs He Hc. destruct (radical_strata b (p d) (digits b) B2 P k m c Hk Hc) as [i [[I1 I2] I3]].
    exists (i - start)%nat. split.
    + replace (start + (i - start))%nat with i by lia. split; [exact I1|]. rewrite R by lia. replace (start + (i - start))%nat with i by lia. exact I2.
    + intros j [J1 J2]. assert (start + j = i)%nat; [|lia]. apply I3. split; [exact J1|]. rewrite <- R by lia. exact J2.
  - intros F q Hq. rewrite (R q Hq), (U F). reflexivity.
Qed.
Print Assumptions C39_points.

(** Bases are prime numbers and differ across dimensions. *)
Theorem C39_bases : (forall d b, get_prime d = Some b -> Znumtheory.prime (Z.of_nat b)) /\ NoDup primes.
Proof.
  split.
  - intros d b H. apply nth_error_In in H. 
    assert (F : forallb (fun b => forallb (fun k => negb (Nat.eqb (Nat.modulo b k) 0)) (seq 2 (b - 2))) primes = true) by (vm_compute; reflexivity).
    rewrite forallb_forall in F. assert (Fb := F b H). rewrite forallb_forall in Fb.
    assert (B : (2 <= b)%nat).
    { assert (E : forallb (Nat.leb 2) primes = true) by (vm_compute; reflexivity). rewrite forallb_forall in E. apply Nat.leb_le, E, H. }
    apply Znumtheory.prime_intro; [lia|]. intros n Hn. apply Znumtheory.Zgcd_1_rel_prime.
    destruct (Z.eq_dec (Z.gcd n (Z.of_nat b)) 1) as [E|E]; [exact E|exfalso].
    assert (D1 := Z.gcd_divide_l n (Z.of_nat b)). assert (D2 := Z.gcd_divide_r n (Z.of_nat b)). assert (P := Z.gcd_nonneg n (Z.of_nat b)).
    set (e := Z.gcd n (Z.of_nat b)) in *. assert (e <= n)%Z by (apply Z.divide_pos_le; [lia|exact D1]).
    assert (e <> 0)%Z. { intros Z0. rewrite Z0 in D1. apply Z.divide_0_l in D1. lia. }
    assert (K := Fb (Z.to_nat e) ltac:(apply in_seq; lia)). apply negb_true_iff, Nat.eqb_neq in K. apply K.
    apply Nat2Z.inj. rewrite Nat2Z.inj_mod, Z2Nat.id by lia. apply Z.mod_divide; [lia|exact D2].
  - assert (E : (fix distinct (l : list nat) : bool := match l with [] => true | a :: l => negb (existsb (Nat.eqb a) l) && distinct l end) primes = true) by (vm_compute; reflexivity).
    revert E. generalize primes. induction l as [|a l IH]; intros E; [constructor|]. apply andb_true_iff in E. destruct E as [E1 E2].
    constructor; [|apply IH; exact E2]. intros I. apply negb_true_iff in E1. 
    assert (X : existsb (Nat.eqb a) l = true) by (apply existsb_exists; exists a; split; [exact I|apply Nat.eqb_refl]). congruence.
Qed.
Print Assumptions C39_bases.

Example C39_applies : good_generator plain /\ (Z.of_nat (4 + 8) <= 2 ^ 44)%Z /\
  (exists nodes weights state', halton nat plain (fun x => x) 2 8 4 false 0%nat = Some ((nodes, weights), state')) /\
  (2 <= digits 2)%nat /\ (4 <= 2 * 2 ^ 2)%nat /\ ((2 + 1) * 2 ^ 2 <= 4 + 8)%nat.
Proof.
  split; [exact plain_good|]. split; [cbn; lia|]. split; [do 3 eexists; lazy -[IZR Rmult Rplus Rdiv Rinv INR]; reflexivity|].
  split; [vm_compute; lia|]. cbn. lia.
Qed.

(* ---------- C40 ---------- *)

Theorem C40_strata S g ppf dimensions size modified state nodes weights state' : good_generator g -> (1 <= size)%nat ->
  lhs S g ppf dimensions size modified state = ((nodes, weights), state') ->
  length nodes = size /\
  exists point : nat -> nat -> R,
    (forall q d, (q < size)%nat -> (d < dimensions)%nat -> nth d (nth q nodes []) 0 = ppf (point q d)) /\
    forall d c, (d < dimensions)%nat -> (c < size)%nat -> exactly_one (fun q => (q < size)%nat /\ in_stratum size c (point q d)).
Proof.
  intros G N H. destruct (lhs_nodes S g G ppf dimensions size modified state nodes weights state' ltac:(lia) H) as [L [_ P]].
  split; [exact L|exact P].
Qed.
Print Assumptions C40_strata.

Example C40_applies : good_generator plain /\ exists nodes weights state', lhs nat plain (fun x => x) 2 3 true 0%nat = ((nodes, weights), state').
Proof. split; [exact plain_good|]. do 3 eexists. reflexivity. Qed.

(* ---------- C41 ---------- *)

(** Product rules have the integrals of iterated sums over nodes on the whole line. *)
Theorem C41_product t nested level x w dimensions nodes weights : (1 <= level)%nat -> (1 <= dimensions)%nat -> sound_tables t nested ->
  get_quadrature_data t level = Some (x, w) -> product_rule t dimensions level nested = Some (nodes, weights) ->
  length nodes = length weights /\
  (forall F, integral nodes weights F = iterated (repeat (whole_line x w) dimensions) F) /\
  (forall fs, length fs = dimensions ->
     integral nodes weights (product_of fs) = fold_right Rmult 1 (map (univariate (whole_line x w)) fs)) /\
  suml (fun v => v) weights = 1.
Proof.
  intros L D T Q H. destruct (product_integral t nested level x w dimensions nodes weights (fun _ => 1) L D T Q H) as [Ln I].
  split; [exact Ln|]. split; [intros F; apply (product_integral t nested level); assumption|]. split.
  - intros fs Hf. rewrite (proj2 (product_integral t nested level x w dimensions nodes weights (product_of fs) L D T Q H)).
    rewrite <- Hf. apply iterated_product.
  - rewrite <- weights_sum_suml, <- (integral_one nodes weights Ln), I. apply suml_repeat_one.
    exact (proj2 (proj2 (T level x w L Q))).
Qed.
Print Assumptions C41_product.

(** Rules on the whole line are symmetric: odd functions integrate to zero. *)
Theorem C41_odd x w f : (forall a, f (- a) = - f a) -> univariate (whole_line x w) f = 0.
Proof.
  intros O. unfold univariate, whole_line. rewrite suml_flat_map. apply suml_zero. intros p _.
  destruct (Req_EM_T (fst p) 0) as [E|E]; cbn [suml fst snd].
  - assert (Z := O 0). rewrite Ropp_0 in Z. rewrite E. assert (f 0 = 0) by lra. rewrite H. ring.
  - rewrite O. ring.
Qed.
Print Assumptions C41_odd.

(** Sequences of positive integers with a length and a sum are enumerated once each. *)
Theorem C41_sequences size summation : (1 <= size)%nat -> (size <= summation)%nat ->
  exists l n, enumerates (positive_sequence size summation) l /\ forall fuel, (n <= fuel)%nat -> same_size_sequences fuel size summation = Some l.
Proof.
  intros H B. exists (map (map S) (compositions (size - 1) (summation - size))), (length (compositions (size - 1) (summation - size))).
  split.
  - assert (E := compositions_enumerate size (summation - size) H). replace (size + (summation - size))%nat with summation in E by lia. exact E.
  - intros fuel F. apply same_size_compositions; assumption.
Qed.
Print Assumptions C41_sequences.

(** Sparse grids have integrals of the combination of products of rules on the whole line, despite merged nodes, copies to
    other orthants and normalisation.  Their weights sum to one. *)
Theorem C41_sparse t nested fuel d level nodes weights sequences : (1 <= d)%nat -> (1 <= level)%nat -> sound_tables t nested ->
  (forall q, enumerates (positive_sequence d (d + q)) (sequences q)) ->
  sparse_grid t fuel d level = Some (nodes, weights) ->
  length nodes = length weights /\ suml (fun v => v) weights = 1 /\
  forall F, integral nodes weights F = smolyak d level (fun l => whole (half t l)) sequences F.
Proof.
  intros D L T E H. destruct (sparse_integral t nested fuel d level nodes weights sequences (fun _ => 1) D L T E H) as [Ln I].
  split; [exact Ln|]. split; [|intros F; apply (sparse_integral t nested fuel); assumption].
  destruct (sparse_grid_rows t fuel d level nodes weights (tables_lengths t nested T) D (tables_middle t nested T) H) as [_ I'].
  rewrite <- weights_sum_suml, <- (integral_one nodes weights Ln), I'.
  rewrite (combination_total t nested fuel d level nodes weights D L T H). field.
Qed.
Print Assumptions C41_sparse.

(** Nodes of sparse grids are distinct and sorted. *)
Theorem C41_distinct t nested fuel d level nodes weights : (1 <= d)%nat -> sound_tables t nested ->
  sparse_grid t fuel d level = Some (nodes, weights) -> NoDup nodes /\ StronglySorted (fun x y => lex_le x y = true) nodes.
Proof.
  intros D T. apply sparse_grid_sorted; [exact (tables_lengths t nested T)|exact D| |exact (tables_middle t nested T)].
  intros l x w a Q Ha. destruct l as [|l].
  - exact (proj1 (proj2 (sound_nonzero _ _ _ (T 1%nat x w (le_n _) Q))) a Ha).
  - exact (proj1 (proj2 (sound_nonzero _ _ _ (T (S l) x w ltac:(lia) Q))) a Ha).
Qed.
Print Assumptions C41_distinct.

Example C41_applies : sound_tables three_levels false /\ (exists nodes weights, product_rule three_levels 2 3 false = Some (nodes, weights)) /\
  (exists nodes weights, sparse_grid three_levels 10 2 2 = Some (nodes, weights)) /\
  (forall q, enumerates (positive_sequence 2 (2 + q)) (map (map S) (compositions 1 q))).
Proof.
  split; [exact three_sound|]. split; [do 2 eexists; reflexivity|]. split.
  - unfold sparse_grid. cbn [get_quadrature_data three_levels node_data weight_data nth_error Nat.sub].
    assert (G : forall fuel rows q, exists r, (q <= 1)%nat -> fuel = 10%nat -> grid_step three_levels fuel 2 2 rows q = Some r).
    { intros fuel rows q. destruct q as [|[|q]].
      - eexists. intros _ ->. unfold grid_step. cbn [same_size_sequences]. reflexivity.
      - eexists. intros _ ->. reflexivity.
      - exists []. lia. }
    destruct (G 10%nat [] 0%nat) as [r0 H0]. destruct (G 10%nat r0 1%nat) as [r1 H1].
    cbn [seq grid_loop]. rewrite H0 by lia. cbn [grid_loop]. rewrite H1 by lia. do 2 eexists. reflexivity.
  - intros q. exact (compositions_enumerate 2 q ltac:(lia)).
Qed.
