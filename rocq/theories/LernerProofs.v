(** Lemmas about markups, profits and their relation to elasticities. *)
From Coq Require Import Reals Lra Lia List Bool Arith.
From Verif Require Import Base DemandSpec DemandModel DemandProofs DemandShares DemandDeriv
  SupplyModel SupplySpec SupplyProofs EndoSpec EndoProofs BasicsModel WelfareModel.
Local Open Scope R_scope.

(** Split off one term of a sum. *)
Lemma sumn_split_one J j f : (j < J)%nat ->
  sumn J f = f j + sumn J (fun k => if Nat.eqb k j then 0 else f k).
Proof.
  intros Hj. rewrite <- (sumn_delta J j f Hj), <- sumn_plus. apply sumn_ext. intros k _. destruct (Nat.eqb k j); ring.
Qed.

(** The smallest element. *)
Lemma smallest n (v : nat -> R) : exists k, (k < S n)%nat /\ forall l, (l < S n)%nat -> v k <= v l.
Proof.
  destruct (maxn_attained n (fun k => - v k)) as [k [Hk E]]. exists k. split; [lia|].
  intros l Hl. assert (G := maxn_ge n (fun k => - v k) l ltac:(lia)). rewrite E in G. lra.
Qed.

(** Inverses of the matrices that are inverted for markups have no negative elements. *)
Lemma capital_delta_positive M O x v : valid_market (fm M) -> price_averse M x -> cooperation (mJ (fm M)) O ->
  (forall j, (j < mJ (fm M))%nat -> sumn (mJ (fm M)) (fun k => O j k * shares_jacobian M x k j * v k) <= 0) ->
  forall j, (j < mJ (fm M))%nat -> 0 <= v j.
Proof.
  intros V PA C H j Hj. destruct (mJ (fm M)) as [|n] eqn:EJ; [lia|].
  destruct (smallest n v) as [k [Hk Mk]]. apply Rle_trans with (v k); [|auto].
  apply Rnot_lt_le. intros N. assert (Z := H k Hk). rewrite (sumn_split_one (S n) k) in Z by assumption.
  assert (Hk' : (k < mJ (fm M))%nat) by (rewrite EJ; exact Hk).
  assert (T := column_total M x k V PA Hk'). rewrite EJ, (sumn_split_one (S n) k) in T by assumption.
  rewrite (proj1 C k Hk) in Z.
  assert (Q : v k * sumn (S n) (fun l => if Nat.eqb l k then 0 else shares_jacobian M x l k)
            <= sumn (S n) (fun l => if Nat.eqb l k then 0 else O k l * shares_jacobian M x l k * v l)).
  { rewrite <- sumn_scal. apply sumn_le. intros l Hl. destruct (Nat.eqb_spec l k) as [->|Hn]; [lra|].
    assert (P : 0 < shares_jacobian M x l k) by (apply cross_positive; auto; rewrite EJ; exact Hl).
    assert (B := proj2 C k l Hk Hl).
    assert (0 <= (O k l * shares_jacobian M x l k) * (v l - v k)).
    { apply Rmult_le_pos; [apply Rmult_le_pos; lra|]. assert (X := Mk l Hl). lra. }
    assert (0 <= (1 - O k l) * shares_jacobian M x l k * - v k).
    { apply Rmult_le_pos; [apply Rmult_le_pos; lra|lra]. }
    lra. }
  assert (0 < v k * (shares_jacobian M x k k + sumn (S n) (fun l => if Nat.eqb l k then 0 else shares_jacobian M x l k))).
  { replace (v k * _) with (- v k * - (shares_jacobian M x k k + sumn (S n) (fun l => if Nat.eqb l k then 0 else shares_jacobian M x l k)))
      by ring.
    apply Rmult_lt_0_compat; lra. }
  lra.
Qed.

(** The markup equation by elasticities: revenues are offset by what own products lose. *)
Lemma revenue_equation solve M O observed j :
  exact_solver (mJ (fm M)) solve -> snd (compute_costs solve M O observed) = false ->
  (forall k, (k < mJ (fm M))%nat -> observed k <> 0 /\ var0 M k <> 0) -> (j < mJ (fm M))%nat ->
  sumn (mJ (fm M)) (fun k => O j k * elasticities M observed k j
    * (markups (var0 M) (fst (compute_costs solve M O observed)) k * (var0 M k * observed k))) = - (var0 M j * observed j).
Proof.
  intros S E N Hj. assert (H := costs_markup_equation solve M O observed S E j Hj). cbv beta in H.
  transitivity (var0 M j * sumn (mJ (fm M)) (fun k => O j k * shares_jacobian M (var0 M) k j
                  * (var0 M k - fst (compute_costs solve M O observed) k))); [|rewrite Rmult_comm; nra].
  rewrite <- sumn_scal. apply sumn_ext. intros k Hk. destruct (N k Hk) as [N1 N2].
  unfold elasticities, markups. field. auto.
Qed.

Lemma single_product solve M O observed j :
  exact_solver (mJ (fm M)) solve -> snd (compute_costs solve M O observed) = false ->
  (j < mJ (fm M))%nat -> O j j = 1 -> (forall k, (k < mJ (fm M))%nat -> k <> j -> O j k = 0) ->
  observed j <> 0 -> var0 M j <> 0 ->
  markups (var0 M) (fst (compute_costs solve M O observed)) j * elasticities M observed j j = - (1).
Proof.
  intros S E Hj O1 O0 N1 N2. assert (H := costs_markup_equation solve M O observed S E j Hj). cbv beta in H.
  rewrite (sumn_split_one _ j) in H by assumption.
  rewrite (sumn_ext _ (fun k => if Nat.eqb k j then 0 else _) (fun _ => 0)) in H.
  2:{ intros k Hk. destruct (Nat.eqb_spec k j) as [|Hn]; [reflexivity|]. rewrite (O0 k Hk Hn). ring. }
  rewrite sumn_zero, O1 in H. unfold markups, elasticities. set (m := var0 M j - _) in *.
  replace (m / var0 M j * (shares_jacobian M (var0 M) j j * var0 M j / observed j))
    with (shares_jacobian M (var0 M) j j * m / observed j) by (field; auto).
  apply Rmult_eq_reg_r with (observed j); [|assumption]. unfold Rdiv. rewrite Rmult_assoc, Rinv_l by assumption. lra.
Qed.

(** Margins are positive. *)
Lemma margins_nonneg solve M O observed j :
  valid_market (fm M) -> price_averse M (var0 M) -> cooperation (mJ (fm M)) O -> exact_solver (mJ (fm M)) solve ->
  snd (compute_costs solve M O observed) = false -> (forall k, (k < mJ (fm M))%nat -> 0 <= observed k) ->
  (j < mJ (fm M))%nat -> 0 <= var0 M j - fst (compute_costs solve M O observed) j.
Proof.
  intros V PA C S E P Hj.
  apply (capital_delta_positive M O (var0 M) (fun j => var0 M j - fst (compute_costs solve M O observed) j) V PA C); [|exact Hj].
  intros k Hk. assert (H := costs_markup_equation solve M O observed S E k Hk). cbv beta in H. assert (Q := P k Hk). lra.
Qed.

(** The first-order condition after splitting off the product's own term. *)
Lemma own_term solve M O observed j :
  exact_solver (mJ (fm M)) solve -> snd (compute_costs solve M O observed) = false -> (j < mJ (fm M))%nat -> O j j = 1 ->
  - shares_jacobian M (var0 M) j j * (var0 M j - fst (compute_costs solve M O observed) j)
  = observed j + sumn (mJ (fm M)) (fun k => if Nat.eqb k j then 0 else
      O j k * shares_jacobian M (var0 M) k j * (var0 M k - fst (compute_costs solve M O observed) k)).
Proof.
  intros S E Hj O1. assert (H := costs_markup_equation solve M O observed S E j Hj). cbv beta in H.
  rewrite (sumn_split_one _ j) in H by assumption. rewrite O1 in H. lra.
Qed.

Lemma diverted_nonneg solve M O observed j :
  valid_market (fm M) -> price_averse M (var0 M) -> cooperation (mJ (fm M)) O -> exact_solver (mJ (fm M)) solve ->
  snd (compute_costs solve M O observed) = false -> (forall k, (k < mJ (fm M))%nat -> 0 <= observed k) ->
  (j < mJ (fm M))%nat ->
  0 <= sumn (mJ (fm M)) (fun k => if Nat.eqb k j then 0 else
      O j k * shares_jacobian M (var0 M) k j * (var0 M k - fst (compute_costs solve M O observed) k)).
Proof.
  intros V PA C S E P Hj. apply sumn_nonneg. intros k Hk. destruct (Nat.eqb_spec k j) as [|Hn]; [lra|].
  apply Rmult_le_pos; [apply Rmult_le_pos|].
  - apply (proj2 C); assumption.
  - left. apply cross_positive; assumption.
  - apply margins_nonneg; assumption.
Qed.

Lemma margins_positive solve M O observed j :
  valid_market (fm M) -> price_averse M (var0 M) -> cooperation (mJ (fm M)) O -> exact_solver (mJ (fm M)) solve ->
  snd (compute_costs solve M O observed) = false -> (forall k, (k < mJ (fm M))%nat -> 0 < observed k) ->
  (j < mJ (fm M))%nat -> fst (compute_costs solve M O observed) j < var0 M j.
Proof.
  intros V PA C S E P Hj.
  assert (T := own_term solve M O observed j S E Hj (proj1 C j Hj)).
  assert (D := diverted_nonneg solve M O observed j V PA C S E (fun k Hk => Rlt_le _ _ (P k Hk)) Hj).
  assert (N := own_negative M (var0 M) j V PA Hj). assert (Q := P j Hj).
  apply Rnot_le_lt. intros L.
  assert (0 <= - shares_jacobian M (var0 M) j j * - (var0 M j - fst (compute_costs solve M O observed) j)) by (apply Rmult_le_pos; lra).
  lra.
Qed.

(** Markups are at least inverse elasticities, strictly so if other products matter to the firm. *)
Lemma elasticity_bound solve M O observed j :
  valid_market (fm M) -> price_averse M (var0 M) -> cooperation (mJ (fm M)) O -> exact_solver (mJ (fm M)) solve ->
  snd (compute_costs solve M O observed) = false -> (forall k, (k < mJ (fm M))%nat -> 0 < observed k) ->
  (j < mJ (fm M))%nat -> 0 < var0 M j ->
  elasticities M observed j j < 0 /\
  - / elasticities M observed j j <= markups (var0 M) (fst (compute_costs solve M O observed)) j /\
  ((exists k, (k < mJ (fm M))%nat /\ k <> j /\ 0 < O j k) ->
   - / elasticities M observed j j < markups (var0 M) (fst (compute_costs solve M O observed)) j).
Proof.
  intros V PA C S E P Hj Hp.
  assert (T := own_term solve M O observed j S E Hj (proj1 C j Hj)).
  assert (D := diverted_nonneg solve M O observed j V PA C S E (fun k Hk => Rlt_le _ _ (P k Hk)) Hj).
  assert (N := own_negative M (var0 M) j V PA Hj). assert (Q := P j Hj).
  set (d := sumn (mJ (fm M)) _) in *. set (m := var0 M j - _) in *.
  assert (Ee : - / elasticities M observed j j = observed j / (- shares_jacobian M (var0 M) j j * var0 M j)).
  { unfold elasticities. field. repeat split; lra. }
  assert (Em : markups (var0 M) (fst (compute_costs solve M O observed)) j
             = (observed j + d) / (- shares_jacobian M (var0 M) j j * var0 M j)).
  { unfold markups. fold m. rewrite <- T. field. split; lra. }
  assert (Pi : 0 < / (- shares_jacobian M (var0 M) j j * var0 M j)).
  { apply Rinv_0_lt_compat, Rmult_lt_0_compat; lra. }
  split; [|split].
  - unfold elasticities, Rdiv. assert (0 < / observed j) by (apply Rinv_0_lt_compat; lra).
    assert (0 < - shares_jacobian M (var0 M) j j * var0 M j * / observed j) by (repeat apply Rmult_lt_0_compat; lra). lra.
  - rewrite Ee, Em. unfold Rdiv. apply Rmult_le_compat_r; lra.
  - intros [k [Hk [Hn Ok]]]. rewrite Ee, Em. unfold Rdiv. apply Rmult_lt_compat_r; [lra|].
    assert (0 < d); [|lra]. unfold d. apply sumn_pos.
    + intros l Hl. destruct (Nat.eqb_spec l j) as [|Hnl]; [lra|]. apply Rmult_le_pos; [apply Rmult_le_pos|].
      * apply (proj2 C); assumption.
      * left. apply cross_positive; assumption.
      * apply margins_nonneg; auto. intros; left; auto.
    + exists k. split; [exact Hk|]. destruct (Nat.eqb_spec k j) as [|_]; [contradiction|].
      repeat apply Rmult_lt_0_compat; [exact Ok|apply cross_positive; assumption|].
      assert (X := margins_positive solve M O observed k V PA C S E P Hk). lra.
Qed.

(** More cooperation means higher markups. *)
Lemma costs_antitone solve M O O' observed j :
  valid_market (fm M) -> price_averse M (var0 M) -> cooperation (mJ (fm M)) O -> cooperation (mJ (fm M)) O' ->
  (forall j k, (j < mJ (fm M))%nat -> (k < mJ (fm M))%nat -> O j k <= O' j k) -> exact_solver (mJ (fm M)) solve ->
  snd (compute_costs solve M O observed) = false -> snd (compute_costs solve M O' observed) = false ->
  (forall k, (k < mJ (fm M))%nat -> 0 <= observed k) -> (j < mJ (fm M))%nat ->
  fst (compute_costs solve M O' observed) j <= fst (compute_costs solve M O observed) j.
Proof.
  intros V PA C C' L S E E' P Hj.
  set (m := fun j => var0 M j - fst (compute_costs solve M O observed) j).
  set (m' := fun j => var0 M j - fst (compute_costs solve M O' observed) j).
  assert (G : 0 <= m' j - m j); [|unfold m, m' in G; lra].
  apply (capital_delta_positive M O (var0 M) (fun j => m' j - m j) V PA C); [|exact Hj]. intros k Hk.
  assert (H := costs_markup_equation solve M O observed S E k Hk).
  assert (H' := costs_markup_equation solve M O' observed S E' k Hk). fold m in H. fold m' in H'.
  rewrite (sumn_ext _ _ (fun l => O k l * shares_jacobian M (var0 M) l k * m' l - O k l * shares_jacobian M (var0 M) l k * m l))
    by (intros; ring).
  rewrite sumn_minus.
  assert (sumn (mJ (fm M)) (fun l => O k l * shares_jacobian M (var0 M) l k * m' l)
       <= sumn (mJ (fm M)) (fun l => O' k l * shares_jacobian M (var0 M) l k * m' l)); [|lra].
  apply sumn_le. intros l Hl. destruct (Nat.eq_dec l k) as [->|Hn].
  - rewrite (proj1 C k Hk), (proj1 C' k Hk). lra.
  - assert (P1 : 0 < shares_jacobian M (var0 M) l k) by (apply cross_positive; assumption).
    assert (P2 : 0 <= m' l) by (apply margins_nonneg; assumption).
    assert (B := L k l Hk Hl).
    assert (0 <= (O' k l - O k l) * shares_jacobian M (var0 M) l k * m' l) by (apply Rmult_le_pos; [apply Rmult_le_pos; lra|exact P2]).
    lra.
Qed.

Lemma approximate_merger solve M O O' observed costs j :
  valid_market (fm M) -> price_averse M (var0 M) -> cooperation (mJ (fm M)) O -> cooperation (mJ (fm M)) O' ->
  (forall j k, (j < mJ (fm M))%nat -> (k < mJ (fm M))%nat -> O j k <= O' j k) -> exact_solver (mJ (fm M)) solve ->
  snd (compute_costs solve M O observed) = false ->
  (costs = None \/ costs = Some (fst (compute_costs solve M O observed))) ->
  snd (compute_approximate_prices solve M O O' observed costs) = false ->
  (forall k, (k < mJ (fm M))%nat -> 0 <= observed k) -> (j < mJ (fm M))%nat ->
  var0 M j <= fst (compute_approximate_prices solve M O O' observed costs) j.
Proof.
  intros V PA C C' L S E Hc E' P Hj.
  assert (Q : snd (compute_costs solve M O' observed) = false /\
    fst (compute_approximate_prices solve M O O' observed costs) j
    = fst (compute_costs solve M O observed) j + (var0 M j - fst (compute_costs solve M O' observed) j)).
  { unfold compute_approximate_prices, compute_costs in *.
    destruct (compute_eta solve M O observed) as [e1 b1]. destruct (compute_eta solve M O' observed) as [e2 b2].
    cbn [fst snd] in *. destruct Hc as [-> | ->]; cbn [fst snd] in *.
    - apply orb_false_iff in E'. split; [tauto|ring].
    - split; [exact E'|ring]. }
  destruct Q as [E2 ->]. assert (X := costs_antitone solve M O O' observed j V PA C C' L S E E2 P Hj). lra.
Qed.

(* ---------- examples ---------- *)

(** Cramer's rule for two products. *)
Definition cramer_solver : solver := fun A b =>
  let det := A 0%nat 0%nat * A 1%nat 1%nat - A 0%nat 1%nat * A 1%nat 0%nat in
  (fun j => if Nat.eqb j 0 then (A 1%nat 1%nat * b 0%nat - A 0%nat 1%nat * b 1%nat) / det
            else (A 0%nat 0%nat * b 1%nat - A 1%nat 0%nat * b 0%nat) / det,
   if Req_EM_T det 0 then true else false).
Lemma cramer_exact : exact_solver 2 cramer_solver.
Proof.
  intros A b. unfold cramer_solver. cbn [fst snd]. destruct (Req_EM_T _ 0) as [|N]; [discriminate|]. intros _ j Hj.
  destruct j as [|[|j]]; [| |lia]; cbn [sumn Nat.eqb]; field; exact N.
Qed.
Lemma cramer_solves M O observed : mJ (fm M) = 2%nat -> valid_market (fm M) -> price_averse M (var0 M) -> cooperation 2 O ->
  snd (compute_costs cramer_solver M O observed) = false.
Proof.
  intros E2 V PA C. rewrite <- E2 in C. assert (NS := capital_delta_nonsingular M O (var0 M) V PA C).
  rewrite E2 in NS. unfold compute_costs, compute_eta, cramer_solver. cbn [snd].
  set (A := capital_delta M O (var0 M)) in *.
  destruct (Req_EM_T _ 0) as [Z|]; [exfalso|reflexivity].
  assert (A00 : A 0%nat 0%nat <> 0).
  { unfold A. rewrite capital_delta_jacobian. assert (N := own_negative M (var0 M) 0%nat V PA ltac:(lia)).
    rewrite (proj1 C 0%nat ltac:(lia)). lra. }
  assert (X := NS (fun k => if Nat.eqb k 0 then - A 0%nat 1%nat else A 0%nat 0%nat)).
  assert (Y : (if Nat.eqb 1 0 then - A 0%nat 1%nat else A 0%nat 0%nat) = 0); [|cbn in Y; contradiction].
  apply X; [|lia]. intros j Hj. destruct j as [|[|j]]; [| |lia]; cbn [sumn Nat.eqb]; lra.
Qed.

(** Two products sold at prices of three, with utilities of zero and price coefficients of minus one. *)
Definition priced_market : full_market :=
  mk_full_market (mk_market 2 0 (fun _ => O) false (fun _ => 0) 1) 1 (fun _ => 1)
    1 (fun _ => mk_column true (fun j x => x) (fun j x => 1) (fun j x => 0)) (fun _ => - (1))
    0 (fun _ => mk_column false (fun _ _ => 0) (fun _ _ => 0) (fun _ _ => 0)) (fun _ _ _ => 0)
    (fun _ => 3) (fun _ => 0) (fun _ _ => 0).
Lemma priced_valid : valid_market (fm priced_market).
Proof. constructor; simpl; try lra; try lia; try contradiction; intros; try reflexivity. Qed.
Lemma priced_averse : price_averse priced_market (var0 priced_market).
Proof.
  split; [simpl; lia|]. split; [simpl; intros; lra|]. split; [|simpl; intros; lia].
  intros i j _ _. unfold utility_derivatives. simpl. destruct (Req_EM_T 1 1); lra.
Qed.
