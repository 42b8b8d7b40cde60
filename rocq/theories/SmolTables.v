(** Proofs about sparse grids from the tables of the package, and witnesses. *)
From Coq Require Import Reals Lra Lia List Bool Arith.
From Verif Require Import Base IntegModel IntegSpec IntegProofs IntegProps IntegTables IntegTablesProps SmolSpec SmolProofs.
Import ListNotations.
Local Open Scope R_scope.

Lemma tabulated_lengths nested : equal_lengths (tabulated nested).
Proof.
  intros level x w H. destruct (C74_structure nested) as [N S]. destruct (Nat.le_gt_cases level 25) as [L|L].
  - destruct level as [|level]; [apply (S 1%nat x w ltac:(lia)); exact H|apply (S (Datatypes.S level) x w ltac:(lia)); exact H].
  - rewrite N in H by exact L. discriminate.
Qed.
Lemma tabulated_middle nested : forall x w, get_quadrature_data (tabulated nested) 1 = Some (x, w) -> nth 0 x 0 = 0.
Proof.
  intros x w H. destruct (proj2 (C74_structure nested) 1%nat x w ltac:(lia) H) as [_ [_ [M _]]]. rewrite orb_true_r in M. destruct M as [y [-> _]]. reflexivity.
Qed.
Lemma tabulated_accurate nested level : (level <= 25)%nat -> accurate_rules (tabulated nested) level (/ 10 ^ 13).
Proof.
  intros L l k Hl Hk. destruct (C74_moments nested l k ltac:(lia) Hk) as [x [w [Q E]]]. unfold moment_of, half. rewrite Q.
  change (whole (combine x w)) with (whole_line x w). eapply Rle_trans; [exact E|]. apply Req_le. unfold Rdiv. ring.
Qed.
Lemma tabulated_first nested : exists w, half (tabulated nested) 1 = [(0, w)].
Proof.
  destruct nested; eexists; unfold half, get_quadrature_data, tabulated; cbn [node_data weight_data map nth_error Nat.sub nested_nodes nested_weights plain_nodes plain_weights to_nodes to_weights combine];
  f_equal; f_equal; unfold Rdiv; rewrite Rmult_0_l; reflexivity.
Qed.
Lemma tabulated_second nested : moment_of (tabulated nested) 1 2 = 0.
Proof.
  unfold moment_of. destruct (tabulated_first nested) as [w ->]. unfold univariate, whole. cbn [flat_map fst]. destruct (Req_EM_T 0 0); [|lra]. cbn. ring.
Qed.
Lemma tabulated_variance nested fuel d level nodes weights i : (2 <= level <= 25)%nat -> (i < d)%nat -> INR d <= 10 ^ 9 ->
  sparse_grid (tabulated nested) fuel d level = Some (nodes, weights) -> Rabs (integral nodes weights (fun x => coordinate i x * coordinate i x) - 1) <= INR d / 10 ^ 10.
Proof.
  intros L Hi Hd G. set (t := tabulated nested) in *. assert (D : (1 <= d)%nat) by lia.
  rewrite (integral_ext_length t fuel d level nodes weights _ (monomial (exponents (pair_of i i) d)) (tabulated_lengths nested) D (tabulated_middle nested) G).
  2: { intros x Hx. symmetry. apply pair_coordinates; assumption. }
  destruct (grid_integral t fuel d level nodes weights (tabulated_lengths nested) D (tabulated_middle nested) G) as [_ ->].
  assert (E0 : 0 <= / 10 ^ 13) by (apply Rlt_le, Rinv_0_lt_compat, pow_lt; lra). assert (A := tabulated_accurate nested level ltac:(lia)).
  assert (B1 := total_squares t d level (/ 10 ^ 13) D ltac:(lia) E0 A (tabulated_second nested)).
  assert (N : exponents (pair_of i i) d <> []) by (intros Z; assert (Q := exponents_length (pair_of i i) d); rewrite Z in Q; cbn in Q; lia).
  assert (B2 := squares_error t level (/ 10 ^ 13) (exponents (pair_of i i) d) ltac:(lia) N E0 A (tabulated_second nested)). rewrite exponents_length in B2.
  assert (B3 := B2 (fun k Hk => ltac:(apply in_map_iff in Hk; destruct Hk as [l [<- _]]; unfold pair_of, at_i; destruct (Nat.eqb l i); [right|left]; reflexivity))
    ltac:(assert (Q := halves_degree (exponents (pair_of i i) d)); assert (Q' := degree_pair d i i); lia)). clear B2.
  set (w := whole_combination t d level (fun _ => 1)) in *. set (v := whole_combination t d level (monomial (exponents (pair_of i i) d))) in *.
  assert (LI : INR level <= 25) by (replace 25 with (INR 25) by (cbn; lra); apply le_INR; lia). assert (L0 := pos_INR level). assert (D0 := pos_INR d).
  assert (T13 : 10 ^ 13 = 10000000000000) by (cbn [pow]; lra). assert (T10 : 10 ^ 10 = 10000000000) by (cbn [pow]; lra). assert (T9 : 10 ^ 9 = 1000000000) by (cbn [pow]; lra).
  rewrite T13 in *. rewrite T10. rewrite T9 in Hd.
  set (x := 2 * INR level * / 10000000000000) in *. assert (X : 0 <= x <= / 200000000000) by (unfold x; split; lra).
  assert (DX : INR d * x <= INR d * / 200000000000) by (apply Rmult_le_compat_l; [exact D0|apply X]).
  assert (PB := power_bound x d (proj1 X) ltac:(lra)).
  assert (U1 : Rabs (w - 1) <= INR d / 100000000000) by lra. assert (U2 : Rabs (v - 1) <= INR d / 100000000000) by lra.
  set (u := INR d / 100000000000) in *. assert (U : 0 <= u <= / 100) by (unfold u; lra).
  assert (W : 1 - u <= w <= 1 + u) by (unfold Rabs in U1; destruct (Rcase_abs (w - 1)); lra).
  assert (V : 1 - u <= v <= 1 + u) by (unfold Rabs in U2; destruct (Rcase_abs (v - 1)); lra).
  replace (INR d / 10000000000) with (10 * u) by (unfold u; lra).
  assert (Wp : 0 < w) by lra. replace (v / w - 1) with ((v - w) * / w) by (field; lra). rewrite Rabs_mult, (Rabs_right (/ w)) by (left; apply Rinv_0_lt_compat; exact Wp).
  apply (Rmult_le_reg_r w); [exact Wp|]. rewrite Rmult_assoc, Rinv_l, Rmult_1_r by lra.
  assert (Rabs (v - w) <= 2 * u) by (unfold Rabs; destruct (Rcase_abs (v - w)); lra). nra.
Qed.
Lemma three_exact : exact_rules three_levels 3.
Proof.
  intros l k Hl Hk. assert (Sq : sqrt 3 * sqrt 3 = 3) by (apply sqrt_sqrt; lra). assert (P : 0 < sqrt 3) by (apply sqrt_lt_R0; lra).
  rewrite Rmult_0_l. apply Req_le. replace (moment_of three_levels l k - normal_moment k) with 0; [apply Rabs_R0|]. symmetry. apply Rminus_diag_eq.
  unfold moment_of, half, univariate, whole.
  destruct l as [|[|[|[|l]]]]; try lia; cbn [get_quadrature_data three_levels node_data weight_data nth_error Nat.sub combine flat_map fst app].
  - destruct (Req_EM_T 0 0); [|lra]. do 2 (destruct k as [|k]; [cbn; lra|]). lia.
  - destruct (Req_EM_T 1 0); [lra|]. do 4 (destruct k as [|k]; [cbn; lra|]). lia.
  - destruct (Req_EM_T 0 0); [|lra]. destruct (Req_EM_T (sqrt 3) 0); [lra|]. cbn [app suml fst snd]. set (a := sqrt 3) in *.
    do 6 (destruct k as [|k]; [cbn; nra|]). lia.
Qed.
Lemma three_grid : exists fuel nodes weights, sparse_grid three_levels fuel 2 3 = Some (nodes, weights).
Proof.
  exists (enough 2 3). apply grid_exists; try lia. intros l Hl. destruct l as [|[|[|[|l]]]]; try lia; discriminate.
Qed.
Lemma tabulated_grid nested d level : (1 <= d)%nat -> (1 <= level <= 25)%nat -> exists fuel nodes weights, sparse_grid (tabulated nested) fuel d level = Some (nodes, weights).
Proof.
  intros D L. exists (enough d level). apply grid_exists; try lia. intros l Hl. destruct (tabulated_some nested l ltac:(lia)) as [x [w ->]]. discriminate.
Qed.
