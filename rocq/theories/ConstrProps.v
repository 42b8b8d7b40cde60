(** Theorems about construction of IDs, ownership matrices and instruments: C33, C34, C35 and C36. *)
From Coq Require Import Reals Lra Lia ZArith List Bool Arith Permutation Sorted.
From Verif Require Import Base FltModel BasicsModel BasicsSpec BasicsProofs ConstrModel ConstrSpec ConstrProofs.
Import ListNotations.
Local Open Scope nat_scope.

(* ---------- C33 ---------- *)

(** IDs are rejected or come as T blocks of J rows with firm IDs below F that do not decrease; in each market the number
    of products of a firm is J / F rounded down or up, at least one, and the first firm has the largest number. *)
Theorem C33_balanced T J F rows : build_id_data T J F = Some rows ->
  length rows = T * J /\
  (forall t j, t < T -> j < J -> fst (nth (t * J + j) rows (0, 0)) = t /\ snd (nth (t * J + j) rows (0, 0)) < F) /\
  (forall t j j', t < T -> j <= j' < J -> snd (nth (t * J + j) rows (0, 0)) <= snd (nth (t * J + j') rows (0, 0))) /\
  (forall t f, t < T -> f < F ->
     let products f := occurrences f (map snd (filter (fun r => Nat.eqb (fst r) t) rows)) in
     1 <= products f /\ J / F <= products f <= J / F + 1 /\ products f <= products 0).
Proof.
  intros H. destruct (id_data_rows T J F rows H) as [[V1 [V2 V3]] [L E]]. split; [exact L|]. split; [|split].
  - intros t j Ht Hj. rewrite (E t j Ht Hj). cbn. split; [reflexivity|]. apply firm_below; lia.
  - intros t j j' Ht Hj. rewrite (E t j), (E t j') by lia. cbn. apply firm_order; lia.
  - intros t f Ht Hf products. unfold products. rewrite (id_data_market T J F rows t H Ht).
    rewrite (first_firm_count J F) by lia.
    destruct (firm_count_bounds J F f V2 V3 Hf) as [B1 [B2 B3]]. assert (C := ceiling_floor J F V2). lia.
Qed.
Print Assumptions C33_balanced.

Theorem C33_divisible T k F rows t f : build_id_data T (k * F) F = Some rows -> t < T -> f < F ->
  occurrences f (map snd (filter (fun r => Nat.eqb (fst r) t) rows)) = k.
Proof.
  intros H Ht Hf. destruct (id_data_rows T (k * F) F rows H) as [[V1 [V2 V3]] _].
  rewrite (id_data_market T _ F rows t H Ht).
  destruct (firm_count_bounds (k * F) F f V2 V3 Hf) as [B1 [B2 _]]. rewrite Nat.div_mul in B1 by lia.
  assert (ceiling (k * F) F <= k) by (apply ceiling_le; lia). lia.
Qed.
Print Assumptions C33_divisible.

Theorem C33_rejected T J F : build_id_data T J F = None <-> T < 1 \/ F < 1 \/ J < F.
Proof.
  unfold build_id_data. destruct (Nat.ltb_spec T 1), (Nat.ltb_spec F 1); cbn [orb]; [tauto..|].
  destruct (Nat.ltb_spec J F); [tauto|]. split; [discriminate|lia].
Qed.
Print Assumptions C33_rejected.

(** But firms with smaller IDs need not be those with excess products. *)
Theorem C33_refuted : exists T J F rows f g, build_id_data T J F = Some rows /\ f < g < F /\
  occurrences f (map snd (filter (fun r => Nat.eqb (fst r) 0) rows)) <
  occurrences g (map snd (filter (fun r => Nat.eqb (fst r) 0) rows)).
Proof.
  exists 1, 7, 5, [(0, 0); (0, 0); (0, 1); (0, 2); (0, 2); (0, 3); (0, 4)], 1, 2. split; [reflexivity|]. cbn. lia.
Qed.
Print Assumptions C33_refuted.

Example C33_applies : exists rows, build_id_data 2 7 3 = Some rows /\ length rows = 14.
Proof. eexists. split; [reflexivity|reflexivity]. Qed.

(* ---------- C34 ---------- *)

(** Row n has values of kappa for its firm and that of each product of its market, in order, and then null values. *)
Theorem C34_ownership ids fids kappa n c : n < length ids ->
  let rows := rows_of ids (nth n ids 0%Z) in
  length rows <= max_J ids /\
  build_ownership ids fids kappa n c =
  if c <? length rows then
    Num (match kappa with
         | Default => if Z.eqb (nth n fids 0%Z) (nth (nth c rows 0) fids 0%Z) then 1%R else 0%R
         | Callable kappa => kappa (nth n fids 0%Z) (nth (nth c rows 0) fids 0%Z)
         | Monopoly => 1%R
         | Single => if Nat.eqb n (nth c rows 0) then 1%R else 0%R
         end)
  else NaN.
Proof. intros Hn rows. split; [exact (max_J_spec ids n Hn)|exact (ownership_spec ids fids kappa n c Hn)]. Qed.
Print Assumptions C34_ownership.

(** By default, ownership within a market is an equivalence relation: products q, r and s of market t. *)
Theorem C34_default ids fids t q r s :
  let rows := rows_of ids t in
  let owns q r := build_ownership ids fids Default (nth q rows 0) r in
  q < length rows -> r < length rows -> s < length rows ->
  owns q q = Num 1%R /\ owns q r = owns r q /\ (owns q r = Num 1%R \/ owns q r = Num 0%R) /\
  (owns q r = Num 1%R -> owns r s = Num 1%R -> owns q s = Num 1%R).
Proof.
  intros rows owns Hq Hr Hs.
  assert (O : forall a b, a < length rows -> b < length rows ->
    owns a b = Num (if Z.eqb (nth (nth a rows 0) fids 0%Z) (nth (nth b rows 0) fids 0%Z) then 1%R else 0%R)).
  { intros a b Ha Hb. assert (I : In (nth a rows 0) rows) by (apply nth_In; exact Ha). apply rows_of_in in I. destruct I as [I1 I2].
    unfold owns. rewrite (ownership_spec ids fids Default (nth a rows 0) b I1). rewrite I2. fold rows.
    destruct (Nat.ltb_spec b (length rows)); [reflexivity|lia]. }
  rewrite !O by assumption. split; [rewrite Z.eqb_refl; reflexivity|]. split; [rewrite Z.eqb_sym; reflexivity|].
  set (a := nth (nth q rows 0) fids 0%Z). set (b := nth (nth r rows 0) fids 0%Z). set (c := nth (nth s rows 0) fids 0%Z).
  assert (N10 : Num 0%R <> Num 1%R).
  { intros E. apply (f_equal (fun f => match f with Num x => x | _ => 0%R end)) in E. lra. }
  destruct (Z.eqb_spec a b), (Z.eqb_spec b c), (Z.eqb_spec a c); split; auto; intros; try congruence; try contradiction.
Qed.
Print Assumptions C34_default.

Example C34_applies : 0 < length [1%Z; 0%Z; 1%Z] /\ length (rows_of [1%Z; 0%Z; 1%Z] 1%Z) = 2 /\
  build_ownership [1%Z; 0%Z; 1%Z] [5%Z; 5%Z; 6%Z] Default 2 0 = Num 0%R.
Proof. cbn. split; [lia|]. split; reflexivity. Qed.

(* ---------- C35 ---------- *)

(** Sums over the firm's other products and over rivals' products in the market, which together with the product's own
    value are the market total. *)
Theorem C35_instruments ids fids ms ps x n : length ids = length fids -> is_argsort ids ms -> is_argsort (interact_ids ids fids) ps ->
  n < length ids ->
  blp_other ids fids ps x n = sum_where (length ids) (others ids fids n) x /\
  blp_rival ids fids ms ps x n = sum_where (length ids) (rivals ids fids n) x /\
  (x n + blp_other ids fids ps x n + blp_rival ids fids ms ps x n)%R = sum_where (length ids) (same ids n) x.
Proof.
  intros L M P Hn. split; [exact (blp_other_spec ids fids ps x L P n Hn)|]. split; [exact (blp_rival_spec ids fids ms ps x L M P n Hn)|].
  unfold blp_rival. rewrite (group_total ids ms x n M Hn). transitivity (sum_where (length ids) (fun m => same ids n m) x); [ring|reflexivity].
Qed.
Print Assumptions C35_instruments.

(** Products can come in any order. *)
Theorem C35_reordered p ids fids ms ps ms' ps' x n :
  Permutation p (seq 0 (length p)) -> length p = length ids -> length fids = length ids ->
  is_argsort ids ms -> is_argsort (interact_ids ids fids) ps ->
  is_argsort (reordered_ids p ids) ms' -> is_argsort (interact_ids (reordered_ids p ids) (reordered_ids p fids)) ps' ->
  n < length ids ->
  blp_other (reordered_ids p ids) (reordered_ids p fids) ps' (reordered p x) n = blp_other ids fids ps x (nth n p 0) /\
  blp_rival (reordered_ids p ids) (reordered_ids p fids) ms' ps' (reordered p x) n = blp_rival ids fids ms ps x (nth n p 0).
Proof. exact (blp_reordered p ids fids ms ps ms' ps' x n). Qed.
Print Assumptions C35_reordered.

(** Every list of IDs has an argsort. *)
Example C35_applies : let ids := [1%Z; 0%Z; 1%Z] in let fids := [5%Z; 5%Z; 6%Z] in
  is_argsort ids (stable_argsort ids) /\ is_argsort (interact_ids ids fids) (stable_argsort (interact_ids ids fids)) /\
  Permutation [2; 0; 1] (seq 0 3).
Proof.
  cbv zeta. split; [apply stable_is_argsort, stable_argsort_correct|]. split; [apply stable_is_argsort, stable_argsort_correct|].
  cbn. apply Permutation_sym. eapply perm_trans; [apply perm_skip, perm_swap|]. apply perm_swap.
Qed.

(* ---------- C36 ---------- *)

(** Without interactions and in the quadratic version, instruments are the documented ones. *)
Theorem C36_documented_partial ids fids K X huge v interact n : length fids = length ids -> n < length ids ->
  v = Quadratic \/ interact = false ->
  build_differentiation_instruments ids fids K X huge v interact n =
  documented_instruments ids fids K X
    (match v, interact with
     | Quadratic, false => QuadraticSquares | Quadratic, true => QuadraticProducts | Local, _ => LocalIndicators end) n.
Proof.
  intros L Hn H. rewrite (differentiation_spec ids fids K X huge v interact n L Hn).
  assert (I : forall l, map (Rmult 1) l = l) by (induction l as [|a l IH]; cbn; [reflexivity|rewrite IH, Rmult_1_l; reflexivity]).
  destruct v, interact; try apply I. destruct H; discriminate.
Qed.
Print Assumptions C36_documented_partial.

(** With interactions in the local version, they are the negatives of the documented ones. *)
Theorem C36_local_products ids fids K X huge n : length fids = length ids -> n < length ids ->
  build_differentiation_instruments ids fids K X huge Local true n =
  map Ropp (documented_instruments ids fids K X LocalProducts n).
Proof.
  intros L Hn. rewrite (differentiation_spec ids fids K X huge Local true n L Hn).
  apply map_ext. intros a. ring.
Qed.
Print Assumptions C36_local_products.

Definition three (n k : nat) : R := match n with 0 => 0%R | 1 => 1%R | _ => 3%R end.
Theorem C36_refuted : exists ids fids K X huge n, length fids = length ids /\ n < length ids /\
  build_differentiation_instruments ids fids K X huge Local true n <> documented_instruments ids fids K X LocalProducts n.
Proof.
  exists [0%Z; 0%Z; 0%Z], [0%Z; 0%Z; 0%Z], 1, three, 1%R, 0. split; [reflexivity|]. split; [cbn; lia|].
  rewrite C36_local_products by (cbn; lia).
  intros E. apply (f_equal (fun l => hd 0%R l)) in E. unfold documented_instruments, documented_terms in E.
  cbn -[pairs_sd near difference Rplus Rmult Ropp] in E.
  set (s := pairs_sd 3 [0%Z; 0%Z; 0%Z] (difference three 0)) in E.
  assert (S : (1 < s)%R).
  { unfold s, pairs_sd.
    assert (M : pairs_mean 3 [0%Z; 0%Z; 0%Z] (difference three 0) = 0%R) by (unfold pairs_mean, pairs_sum, difference; cbn -[Rdiv Rplus Rminus]; field).
    rewrite M. replace (pairs_mean _ _ _) with (14 / 3)%R by (unfold pairs_mean, pairs_sum, difference; cbn -[Rdiv Rplus Rminus Rmult]; field).
    rewrite <- sqrt_1 at 1. apply sqrt_lt_1; lra. }
  unfold near, difference in E. cbn [three] in E.
  destruct (Rlt_dec (Rabs (1 - 0)) s) as [A|A]; [|apply A; rewrite Rabs_pos_eq by lra; lra].
  destruct (Rlt_dec (Rabs (3 - 0)) s); lra.
Qed.
Print Assumptions C36_refuted.

Example C36_applies : length [5%Z; 5%Z; 6%Z] = length [1%Z; 0%Z; 1%Z] /\ 2 < length [1%Z; 0%Z; 1%Z].
Proof. cbn. lia. Qed.
