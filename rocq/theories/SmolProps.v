(** Property theorems about polynomials and sparse grids (C161). *)
From Coq Require Import Reals Lra Lia List Bool Arith.
From Verif Require Import Base IntegModel IntegSpec IntegProofs IntegProps IntegTables SmolSpec SmolProofs SmolTables.
Import ListNotations.
Local Open Scope R_scope.

(** * C161 Sparse grids integrate polynomials exactly up to a total degree of twice their level *)

(** Monomials: the halves of exponents, rounded down, may add up to one less than the level. *)
Theorem C161_monomials t nested fuel level nodes weights ks : sound_tables t nested -> exact_rules t level -> ks <> [] ->
  (fold_right plus 0 (map (fun k => k / 2) ks) < level)%nat -> sparse_grid t fuel (length ks) level = Some (nodes, weights) ->
  integral nodes weights (monomial ks) = normal_monomial ks.
Proof. intros T A N H G. exact (monomials_exact t fuel level nodes weights ks (tables_lengths t nested T) (tables_middle t nested T) A N H G). Qed.
Print Assumptions C161_monomials.

(** Polynomials of total degree below twice the level, in any number of dimensions. *)
Theorem C161_polynomials t nested fuel d level nodes weights p : sound_tables t nested -> exact_rules t level -> (1 <= d)%nat ->
  polynomial_in d (2 * level) p -> sparse_grid t fuel d level = Some (nodes, weights) ->
  integral nodes weights (polynomial_at p) = normal_expectation p.
Proof.
  intros T A D P G. unfold polynomial_at, normal_expectation. rewrite (integral_linear nodes weights p (fun m => monomial (snd m)) fst).
  apply suml_ext. intros m Hm. f_equal. destruct (P m Hm) as [L Dg]. apply (C161_monomials t nested fuel level); try assumption.
  - intros Z. rewrite Z in L. cbn in L. lia.
  - assert (H := halves_degree (snd m)). unfold halves in H. lia.
  - rewrite L. exact G.
Qed.
Print Assumptions C161_polynomials.

(** With any tables, whatever their accuracy and whatever the degree, monomials with an odd exponent have integrals that are exactly zero. *)
Theorem C161_odd t nested fuel level nodes weights ks : sound_tables t nested \/ t = tabulated nested -> (1 <= level)%nat ->
  (exists k, In k ks /\ Nat.odd k = true) -> sparse_grid t fuel (length ks) level = Some (nodes, weights) ->
  integral nodes weights (monomial ks) = 0.
Proof.
  intros [T| ->] L O G.
  - exact (odd_monomials t fuel level nodes weights ks (tables_lengths t nested T) (tables_middle t nested T) L O G).
  - exact (odd_monomials _ fuel level nodes weights ks (tabulated_lengths nested) (tabulated_middle nested) L O G).
Qed.
Print Assumptions C161_odd.

(** So from level two on, nodes have zero means and covariances that are the identity, and tastes have the covariances that sigma says. *)
Theorem C161_tastes t nested fuel d level nodes weights sigma i j : sound_tables t nested -> exact_rules t level -> (2 <= level)%nat -> (1 <= d)%nat ->
  sparse_grid t fuel d level = Some (nodes, weights) ->
  (forall k l, (k < d)%nat -> (l < d)%nat -> integral nodes weights (coordinate k) = 0 /\
    integral nodes weights (fun x => coordinate k x * coordinate l x) = if Nat.eqb k l then 1 else 0) /\
  integral nodes weights (taste d sigma i) = 0 /\
  integral nodes weights (fun x => taste d sigma i x * taste d sigma j x) = sumn d (fun k => sigma i k * sigma j k).
Proof.
  intros T A L D G. assert (EL := tables_lengths t nested T). assert (Mid := tables_middle t nested T).
  assert (M : forall k, (k < d)%nat -> integral nodes weights (coordinate k) = 0) by (intros k Hk; exact (mean_zero t fuel d level nodes weights k EL Mid ltac:(lia) Hk G)).
  assert (V : forall k l, (k < d)%nat -> (l < d)%nat -> integral nodes weights (fun x => coordinate k x * coordinate l x) = if Nat.eqb k l then 1 else 0).
  { intros k l Hk Hl. exact (covariance_exact t fuel d level nodes weights k l EL Mid A L Hk Hl G). }
  split; [intros k l Hk Hl; split; [apply M|apply V]; assumption|]. split; [apply integral_mean_taste; exact M|].
  rewrite (integral_taste t fuel d level nodes weights sigma i j _ EL D Mid G V). apply sumn_ext. intros k Hk.
  rewrite (sumn_single d k (fun l => sigma i k * sigma j l * (if Nat.eqb k l then 1 else 0)) Hk).
  - rewrite Nat.eqb_refl. ring.
  - intros l Hl Ne. destruct (Nat.eqb_spec k l); [congruence|]. ring.
Qed.
Print Assumptions C161_tastes.

(** Rules in tables are accurate up to relative errors.  Integrals before weights are divided by their sum are then within bounds that vanish
    with these errors. *)
Theorem C161_errors t nested fuel level eps nodes weights ks : sound_tables t nested \/ t = tabulated nested -> 0 <= eps -> accurate_rules t level eps -> ks <> [] ->
  (fold_right plus 0 (map (fun k => k / 2) ks) < level)%nat -> sparse_grid t fuel (length ks) level = Some (nodes, weights) ->
  exists w, Rabs (w - 1) <= error_bound t level eps (repeat 0%nat (length ks)) /\
    (w <> 0 -> Rabs (w * integral nodes weights (monomial ks) - normal_monomial ks) <= error_bound t level eps ks).
Proof.
  intros T E A N H G. assert (L : (1 <= level)%nat) by lia. assert (D : (1 <= length ks)%nat) by (destruct ks; [congruence|cbn; lia]).
  assert (I : length nodes = length weights /\ forall F, integral nodes weights F = whole_combination t (length ks) level F / whole_combination t (length ks) level (fun _ => 1)).
  { destruct T as [T| ->].
    - exact (grid_integral t fuel _ level nodes weights (tables_lengths t nested T) D (tables_middle t nested T) G).
    - exact (grid_integral _ fuel _ level nodes weights (tabulated_lengths nested) D (tabulated_middle nested) G). }
  exists (whole_combination t (length ks) level (fun _ => 1)). split; [exact (total_error t (length ks) level eps D L E A)|]. intros W.
  rewrite (proj2 I (monomial ks)). replace (whole_combination t (length ks) level (fun _ => 1) * (whole_combination t (length ks) level (monomial ks) / whole_combination t (length ks) level (fun _ => 1)))
    with (whole_combination t (length ks) level (monomial ks)) by (field; exact W). exact (combination_error t level eps ks L N E A H).
Qed.
Print Assumptions C161_errors.

(** The tables of the package: grids exist for each level up to 25, nodes have means and correlations that are exactly zero, and from level two on
    variances are one up to 10^-10 for each dimension. *)
Theorem C161_package nested d level : (1 <= d)%nat -> (1 <= level <= 25)%nat ->
  accurate_rules (tabulated nested) level (/ 10 ^ 13) /\
  (exists fuel nodes weights, sparse_grid (tabulated nested) fuel d level = Some (nodes, weights)) /\
  forall fuel nodes weights, sparse_grid (tabulated nested) fuel d level = Some (nodes, weights) ->
    (forall i, (i < d)%nat -> integral nodes weights (coordinate i) = 0) /\
    (forall i j, (i < d)%nat -> (j < d)%nat -> i <> j -> integral nodes weights (fun x => coordinate i x * coordinate j x) = 0) /\
    ((2 <= level)%nat -> INR d <= 10 ^ 9 -> forall i, (i < d)%nat -> Rabs (integral nodes weights (fun x => coordinate i x * coordinate i x) - 1) <= INR d / 10 ^ 10).
Proof.
  intros D L. split; [apply tabulated_accurate; lia|]. split; [apply tabulated_grid; assumption|]. intros fuel nodes weights G.
  assert (EL := tabulated_lengths nested). assert (Mid := tabulated_middle nested). split; [|split].
  - intros i Hi. exact (mean_zero _ fuel d level nodes weights i EL Mid ltac:(lia) Hi G).
  - intros i j Hi Hj Ne. exact (covariance_zero _ fuel d level nodes weights i j EL Mid ltac:(lia) Hi Hj Ne G).
  - intros L2 Hd i Hi. exact (tabulated_variance nested fuel d level nodes weights i ltac:(lia) Hi Hd G).
Qed.
Print Assumptions C161_package.

(** Level one is accepted but has one node, at zero, so that there are no random tastes, whatever sigma is. *)
Theorem C161_level_one nested fuel d nodes weights F : (1 <= d)%nat -> sparse_grid (tabulated nested) fuel d 1 = Some (nodes, weights) ->
  integral nodes weights F = F (repeat 0 d) /\ forall sigma i, integral nodes weights (fun x => taste d sigma i x ^ 2) = 0.
Proof.
  intros D G. destruct (grid_integral _ fuel d 1 nodes weights (tabulated_lengths nested) D (tabulated_middle nested) G) as [_ I].
  destruct (tabulated_first nested) as [w H].
  assert (W : w <> 0).
  { intros ->. assert (A := tabulated_accurate nested 1 ltac:(lia) 1%nat 0%nat ltac:(lia) ltac:(lia)). unfold moment_of in A. rewrite H in A. unfold univariate, whole in A.
    cbn [flat_map fst] in A. destruct (Req_EM_T 0 0); [|lra]. cbn [app suml fst snd normal_moment] in A. rewrite pow_O in A.
    replace (0 * 1 + 0 - 1) with (- (1)) in A by ring. rewrite Rabs_Ropp, Rabs_R1 in A. assert (10 ^ 13 = 10000000000000) by (cbn [pow]; lra). rewrite H0 in A. lra. }
  assert (K : forall F, integral nodes weights F = F (repeat 0 d)).
  { intros F'. rewrite I, !(level_one _ d _ w D H). field. apply pow_nonzero. exact W. }
  split; [apply K|]. intros sigma i. rewrite K. unfold taste. rewrite (sumn_ext d _ (fun _ => 0)); [rewrite sumn_zero; ring|].
  intros k Hk. unfold coordinate. replace (nth k (repeat 0 d) 0) with 0; [ring|]. clear. symmetry. revert k. induction d as [|d IH]; intros [|k]; cbn; try reflexivity. apply IH.
Qed.
Print Assumptions C161_level_one.

(** Three levels of Gauss-Hermite rules are exact, and a polynomial with squares, products and a fourth power. *)
Example C161_applies : sound_tables three_levels false /\ exact_rules three_levels 3 /\
  (exists fuel nodes weights, sparse_grid three_levels fuel 2 3 = Some (nodes, weights)) /\
  let p := [(2, [2; 2]%nat); (-1, [4; 1]%nat); (5, [0; 4]%nat)] in polynomial_in 2 6 p /\ normal_expectation p = 17.
Proof.
  split; [exact three_sound|]. split; [exact three_exact|]. split; [exact three_grid|]. cbv zeta. split.
  - intros m [<-|[<-|[<-|[]]]]; cbn; lia.
  - unfold normal_expectation, normal_monomial. cbn. lra.
Qed.
