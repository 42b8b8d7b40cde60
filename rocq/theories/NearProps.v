(** C166: choice probabilities and consumer surplus of nested logit models in floating point arithmetic. *)
From Coq Require Import Reals Lra Lia List Bool Arith ZArith.
From Flocq Require Import Core.
From Verif Require Import Base FltModel RoundModel RoundSpec RoundWitness LogsumModel LogsumSpec LogsumWitness NearSpec NearProofs NearWitness.
Local Open Scope R_scope.

(** With one nesting parameter rho and utilities of at most U (1 - rho), each computed probability is a number that differs
    from the exact one by at most 160 (U + J + H + 3) eps, if what underflows is small relative to exp(-(2 U + J + 5)). *)
Theorem C166_probabilities :
  forall A N eps eta J H U delta mu group group_tree groups_tree rho several,
  rounds A N -> exponential A -> accurate A eps eta -> log_accurate A eps ->
  nests J H group group_tree groups_tree -> 0 <= rho < 1 ->
  (forall k, (k < J)%nat -> Rabs (delta k + mu k) <= INR U * (1 - rho)) ->
  (4 * S J * S H <= N)%nat -> (2 * U + J + H + 5 <= N)%nat ->
  eta <= eps * exp (- (2 * INR U + INR J + 5)) -> eta <= eps * (1 - rho) -> 160 * (INR U + INR J + INR H + 3) * eps <= 1 ->
  forall j, (j < J)%nat ->
  exists p, nested_choice A J (fun _ k => Num (mu k)) group group_tree groups_tree (fun _ => rho) several (fun k => Num (delta k)) 0 j = Num p /\
    Rabs (p - exact_probability J H group rho (divided rho (fun k => delta k + mu k)) j) <= 160 * (INR U + INR J + INR H + 3) * eps.
Proof.
  intros A N eps eta J H U delta mu group group_tree groups_tree rho several HR HE HA HLA HG Hr Hv HN HNU He Her Hs.
  exact (choice_near A N eps eta HR HE HA HLA J H U delta mu group group_tree groups_tree rho several HG Hr Hv HN HNU He Her Hs).
Qed.
Print Assumptions C166_probabilities.

(** So does the logarithm of which consumer surplus is a multiple. *)
Theorem C166_surplus :
  forall A N eps eta J H U delta mu group group_tree groups_tree rho several,
  rounds A N -> exponential A -> accurate A eps eta -> log_accurate A eps ->
  nests J H group group_tree groups_tree -> 0 <= rho < 1 ->
  (forall k, (k < J)%nat -> Rabs (delta k + mu k) <= INR U * (1 - rho)) ->
  (4 * S J * S H <= N)%nat -> (2 * U + J + H + 5 <= N)%nat ->
  eta <= eps * exp (- (2 * INR U + INR J + 5)) -> eta <= eps * (1 - rho) -> 160 * (INR U + INR J + INR H + 3) * eps <= 1 ->
  exists x, nested_numerator A J (fun _ => true) (nested_utility A (fun _ k => Num (mu k)) group (fun _ => rho) (fun k => Num (delta k)) 0)
      H group_tree groups_tree (fun _ => rho) several = Num x /\
    Rabs (x - exact_maximum J H group rho (divided rho (fun k => delta k + mu k))) <= 160 * (INR U + INR J + INR H + 3) * eps.
Proof.
  intros A N eps eta J H U delta mu group group_tree groups_tree rho several HR HE HA HLA HG Hr Hv HN HNU He Her Hs.
  exact (maximum_near A N eps eta HR HE HA HLA J H U delta mu group group_tree groups_tree rho several HG Hr Hv HN HNU He Her Hs).
Qed.
Print Assumptions C166_surplus.

(** Exact probabilities are positive, and they and that of the outside option, which is one over the exponential of the
    expected maximum utility, add up to one. *)
Theorem C166_exact :
  forall J H group rho v, 0 <= rho < 1 -> (forall j, (j < J)%nat -> (group j < H)%nat) ->
  (forall h, (h < H)%nat -> exists j, (j < J)%nat /\ group j = h) ->
  (forall j, (j < J)%nat -> 0 < exact_probability J H group rho v j <= 1) /\
  sumn J (exact_probability J H group rho v) + / exp (exact_maximum J H group rho v) = 1.
Proof.
  intros J H group rho v Hr Hg Hne. split.
  - intros j Hj. exact (exact_unit J H group rho v Hg j Hj).
  - unfold exact_maximum. rewrite exp_ln; [exact (exact_total J H group rho v Hr Hg Hne)|].
    assert (0 <= sumn H (powered_sum J group rho v)) by (apply sumn_nonneg; intros; left; apply exp_pos). lra.
Qed.
Print Assumptions C166_exact.

(** Without bounds on utilities divided by one minus the nesting parameter, computed probabilities are not close to exact
    ones: in double precision, with utilities of one and zero of two products in groups of their own and a nesting
    parameter close to one, the probability of the second is computed as zero, without any error, although it is at least
    one fifth. *)
Theorem C166_underflow_refuted :
  nested_choice binary64 2 (fun _ _ => Num 0) (fun j => j) Leaf two (fun _ => 1 - / 2048) false (fun j => if Nat.eqb j 0 then Num 1 else Num 0) 0 1 = Num 0 /\
  / 5 <= exact_probability 2 2 (fun j => j) (1 - / 2048) (divided (1 - / 2048) (fun j => if Nat.eqb j 0 then 1 else 0)) 1.
Proof. split; [exact vanishing_choice|exact exact_vanishing]. Qed.
Print Assumptions C166_underflow_refuted.

(** Two products with utilities of one and zero in one group with a nesting parameter of one half, in double precision. *)
Example C166_applies : exists p,
  nested_choice binary64 2 (fun _ _ => Num 0) (fun _ => 0%nat) (fun _ => two) (Leaf 0) (fun _ => / 2) false (fun j => Num (if Nat.eqb j 0 then 1 else 0)) 0 0 = Num p /\
  Rabs (p - exact_probability 2 1 (fun _ => 0%nat) (/ 2) (divided (/ 2) (fun j => (if Nat.eqb j 0 then 1 else 0) + 0)) 0) <= / 10 ^ 12.
Proof.
  destruct (C166_probabilities binary64 1000 (bpow radix2 (-53)) (bpow radix2 (-1075)) 2 1 2 (fun j => if Nat.eqb j 0 then 1 else 0) (fun _ => 0)
    (fun _ => 0%nat) (fun _ => two) (Leaf 0) (/ 2) false (rounds64 1000 ltac:(lia)) exponential64 accurate64 (log_accurate64 _ (bpow_ge_0 _ _)) one_nest) with (j := 0%nat) as (p & Ep & Dp).
  - lra.
  - intros k Hk. cbn [INR]. destruct (Nat.eqb k 0); rewrite Rplus_0_r, Rabs_pos_eq; lra.
  - lia.
  - lia.
  - exact moderate.
  - replace (1 - / 2) with (bpow radix2 (-1)) by (cbn; lra). rewrite <- bpow_plus. apply bpow_le. lia.
  - cbn. lra.
  - lia.
  - exists p. split; [exact Ep|]. eapply Rle_trans; [exact Dp|]. cbn. lra.
Qed.
