(** Theorems about parameters, their bounds and theta.  Each is closed by a lemma proved elsewhere.
    Throughout, [initialize] returned parameters (there was no ValueError) and sigma, if any, is square. *)
From Coq Require Import Reals Lra Lia List Bool Arith.
From Verif Require Import FltModel ParamsModel ParamsSpec ParamsProofs.
Import ListNotations.

(* ---------- C23: theta and matrices ---------- *)

(** Compressing and then expanding gives the matrices back. *)
Theorem C23_expand_compress values shapes bv bounded nans ps n :
  initialize values shapes bv bounded nans = Some ps -> shapes Sigma = [(n, n)] ->
  forall k i j, i < nrows (mat ps k) -> j < ncols (mat ps k) ->
  expand ps (compress ps) false k i j = entry (mat ps k) i j.
Proof. exact (@accepted_expand_compress values shapes bv bounded nans ps n). Qed.
Print Assumptions C23_expand_compress.

(** Expanding and then compressing gives any theta back. *)
Theorem C23_compress_expand values shapes bv bounded nans ps n :
  initialize values shapes bv bounded nans = Some ps -> shapes Sigma = [(n, n)] ->
  forall theta nullify, length theta = length (unfixed ps) -> compress_with ps (expand ps theta nullify) = theta.
Proof. exact (@accepted_compress_expand values shapes bv bounded nans ps n). Qed.
Print Assumptions C23_compress_expand.

(** Element m of theta is the entry of the m-th parameter. *)
Theorem C23_positions values shapes bv bounded nans ps n :
  initialize values shapes bv bounded nans = Some ps -> shapes Sigma = [(n, n)] ->
  forall theta nullify m k i j, length theta = length (unfixed ps) ->
  nth_error (unfixed ps) m = Some (k, (i, j)) -> expand ps theta nullify k i j = nth m theta NaN.
Proof. exact (@accepted_position values shapes bv bounded nans ps n). Qed.
Print Assumptions C23_positions.

(** Fixed parameters keep their values whatever theta is, unless they are nullified. *)
Theorem C23_fixed values shapes bv bounded nans ps n :
  initialize values shapes bv bounded nans = Some ps -> shapes Sigma = [(n, n)] ->
  forall theta k i j, In (k, (i, j)) (fixed ps) ->
  expand ps theta false k i j = entry (mat ps k) i j /\
  (length theta = length (unfixed ps) -> expand ps theta true k i j = NaN).
Proof. exact (@accepted_fixed values shapes bv bounded nans ps n). Qed.
Print Assumptions C23_fixed.

(** No two elements of theta are for the same entry. *)
Theorem C23_distinct values shapes bv bounded nans ps n :
  initialize values shapes bv bounded nans = Some ps -> shapes Sigma = [(n, n)] -> NoDup (unfixed ps).
Proof. exact (@accepted_nodup values shapes bv bounded nans ps n). Qed.
Print Assumptions C23_distinct.

(** Values that are specified are the ones in matrices, except for the upper triangle of sigma. *)
Theorem C23_values values shapes bv bounded nans ps :
  initialize values shapes bv bounded nans = Some ps ->
  (forall k m, values k = Some m -> k <> Sigma -> mat ps k = m) /\
  (forall m i j, values Sigma = Some m -> j <= i -> entry (mat ps Sigma) i j = entry m i j).
Proof. intro H. exact (proj2 (proj2 (proj2 (initialize_spec values shapes bv bounded nans ps H)))). Qed.
Print Assumptions C23_values.

(* ---------- C24: fixed parameters and bounds ---------- *)

(** Entries in theta are exactly those that are not concentrated out and have different bounds. *)
Theorem C24_unfixed values shapes bv bounded nans ps n :
  initialize values shapes bv bounded nans = Some ps -> shapes Sigma = [(n, n)] ->
  forall k i j, In (k, (i, j)) (unfixed ps) <->
    is_entry (mat ps) k i j /\ ~ (linear k = true /\ entry (mat ps k) i j = NaN) /\ lower ps k i j <> upper ps k i j.
Proof. exact (@accepted_unfixed values shapes bv bounded nans ps n). Qed.
Print Assumptions C24_unfixed.

(** Every entry is either in theta, fixed or concentrated out. *)
Theorem C24_partition values shapes bv bounded nans ps n :
  initialize values shapes bv bounded nans = Some ps -> shapes Sigma = [(n, n)] ->
  forall k i j, is_entry (mat ps) k i j ->
    (In (k, (i, j)) (unfixed ps) /\ ~ In (k, (i, j)) (fixed ps) /\ ~ In (k, (i, j)) (eliminated ps)) \/
    (~ In (k, (i, j)) (unfixed ps) /\ In (k, (i, j)) (fixed ps) /\ ~ In (k, (i, j)) (eliminated ps)) \/
    (~ In (k, (i, j)) (unfixed ps) /\ ~ In (k, (i, j)) (fixed ps) /\ In (k, (i, j)) (eliminated ps)).
Proof. exact (@accepted_partition values shapes bv bounded nans ps n). Qed.
Print Assumptions C24_partition.

(** Parameters initialised at zero are not in theta. *)
Theorem C24_zero values shapes bv bounded nans ps n :
  initialize values shapes bv bounded nans = Some ps -> shapes Sigma = [(n, n)] ->
  forall k i j, entry (mat ps k) i j = Num 0 -> ~ In (k, (i, j)) (unfixed ps).
Proof. exact (@accepted_zero values shapes bv bounded nans ps n). Qed.
Print Assumptions C24_zero.

(** Parameters with equal bounds are not in theta, even when the optimiser does not support bounds. *)
Theorem C24_equal_bounds values shapes bv bounded nans ps n :
  initialize values shapes bv bounded nans = Some ps -> shapes Sigma = [(n, n)] ->
  forall l u k i j, bv k = Some (l, u) -> feqb (l i j) (u i j) = true -> ~ In (k, (i, j)) (unfixed ps).
Proof. exact (@accepted_equal values shapes bv bounded nans ps n). Qed.
Print Assumptions C24_equal_bounds.

(** Starting values outside of bounds are rejected... *)
Theorem C24_rejected values shapes bv bounded nans k l u i j m : k <> Sigma \/ j <= i ->
  values k = Some m -> bv k = Some (l, u) -> i < nrows m -> j < ncols m ->
  fltb (entry m i j) (l i j) = true \/ fltb (u i j) (entry m i j) = true ->
  initialize values shapes bv bounded nans = None.
Proof. exact (initialize_rejects values shapes bv bounded nans k l u i j m). Qed.
Print Assumptions C24_rejected.

(** ...so accepted ones are within bounds, including default bounds. *)
Theorem C24_within values shapes bv bounded nans ps n :
  initialize values shapes bv bounded nans = Some ps -> shapes Sigma = [(n, n)] ->
  Forall2 (fun x b => within (fst b) x (snd b)) (compress ps) (compress_bounds ps).
Proof. exact (@accepted_within values shapes bv bounded nans ps n). Qed.
Print Assumptions C24_within.

(** Bounds are never NaN. *)
Theorem C24_not_nan values shapes bv bounded nans ps n :
  initialize values shapes bv bounded nans = Some ps -> shapes Sigma = [(n, n)] ->
  forall k i j, is_entry (mat ps) k i j -> fnan (lower ps k i j) = false /\ fnan (upper ps k i j) = false.
Proof. exact (@accepted_not_nan values shapes bv bounded nans ps n). Qed.
Print Assumptions C24_not_nan.

(** Specified bounds are used, with infinities in place of NaN. *)
Theorem C24_specified values shapes bv bounded nans ps n :
  initialize values shapes bv bounded nans = Some ps -> shapes Sigma = [(n, n)] ->
  forall l u k i j, bounded = true -> bv k = Some (l, u) -> In (k, (i, j)) (unfixed ps) ->
  lower ps k i j = (if fnan (l i j) then NInf else l i j) /\ upper ps k i j = (if fnan (u i j) then PInf else u i j).
Proof. exact (@accepted_specified values shapes bv bounded nans ps n). Qed.
Print Assumptions C24_specified.

(** When the optimiser does not support bounds, there are none on theta. *)
Theorem C24_unbounded values shapes bv bounded nans ps n :
  initialize values shapes bv bounded nans = Some ps -> shapes Sigma = [(n, n)] ->
  bounded = false -> forall k i j, In (k, (i, j)) (unfixed ps) -> lower ps k i j = NInf /\ upper ps k i j = PInf.
Proof. exact (@accepted_unbounded values shapes bv bounded nans ps n). Qed.
Print Assumptions C24_unbounded.

(* ---------- C69: bootstrap ---------- *)

(** Draws are within bounds.  Bounds of concentrated out parameters are not validated, so they are assumed
    to be in order. *)
Theorem C69_within values shapes bv bounded nans ps n :
  initialize values shapes bv bounded nans = Some ps -> shapes Sigma = [(n, n)] ->
  forall theta elim k i j, length theta = length (unfixed ps) ->
  (forall x, In x theta -> fnan x = false) -> (forall k i j, fnan (elim k i j) = false) ->
  i < nrows (mat ps k) -> j < ncols (mat ps k) ->
  (linear k = true -> entry (mat ps k) i j = NaN -> fleb (lower ps k i j) (upper ps k i j) = true) ->
  within (lower ps k i j) (bootstrap_draw ps theta elim k i j) (upper ps k i j).
Proof. exact (@accepted_bootstrap values shapes bv bounded nans ps n). Qed.
Print Assumptions C69_within.

Theorem C69_fixed values shapes bv bounded nans ps n :
  initialize values shapes bv bounded nans = Some ps -> shapes Sigma = [(n, n)] ->
  forall theta elim k i j, length theta = length (unfixed ps) ->
  In (k, (i, j)) (fixed ps) -> bootstrap_draw ps theta elim k i j = entry (mat ps k) i j.
Proof. exact (@accepted_bootstrap_fixed values shapes bv bounded nans ps n). Qed.
Print Assumptions C69_fixed.

(* ---------- C70: tables of standard errors ---------- *)

(** Rho and beta: the standard error is blank exactly when the parameter is fixed. *)
Theorem C70_vectors values shapes bv bounded nans ps n :
  initialize values shapes bv bounded nans = Some ps -> shapes Sigma = [(n, n)] ->
  (forall i, ncols (mat ps Rho) <= 1 -> i < nrows (mat ps Rho) -> (rho_se_printed ps i = false <-> In (Rho, (i, 0)) (fixed ps))) /\
  (forall i, ncols (mat ps Beta) <= 1 -> i < nrows (mat ps Beta) -> (beta_se_printed ps i = false <-> In (Beta, (i, 0)) (fixed ps))).
Proof.
  intros H S. split; intros i C Hi; apply (accepted_vector_printed H S); auto; discriminate.
Qed.
Print Assumptions C70_vectors.

(** Phi, sigma and pi. *)
Theorem C70_matrices ps i j :
  (phi_se_printed ps i j = false <-> In (Phi, (i, j)) (fixed ps)) /\
  (forall k, nonlinear_se_printed ps k i j = true <-> In (k, (i, j)) (unfixed ps)).
Proof.
  split; [|intro k; exact (row_in k i j (unfixed ps))].
  unfold phi_se_printed. rewrite negb_false_iff. exact (row_in Phi i j (fixed ps)).
Qed.
Print Assumptions C70_matrices.

(* ---------- Examples ---------- *)

Definition example_values (k : kind) : option matrix :=
  match k with
  | Sigma => Some {| nrows := 2; ncols := 2; entry := fun i j => match i, j with 0, 0 => Num 1 | 1, 1 => Num 2 | 0, 1 => Num 7 | _, _ => Num 0 end |}
  | Pi => Some {| nrows := 2; ncols := 1; entry := fun i _ => match i with 0 => Num 3 | _ => Num 5 end |}
  | Beta => Some {| nrows := 2; ncols := 1; entry := fun i _ => match i with 0 => NaN | _ => Num 4 end |}
  | Gamma => Some {| nrows := 2; ncols := 1; entry := fun i _ => match i with 0 => Num 0 | _ => Num 4 end |}
  | _ => None
  end.
Definition example_shapes (k : kind) : list (nat * nat) :=
  match k with
  | Sigma => [(2, 2)]
  | Pi => [(2, 1)]
  | Rho => [(0, 1)]
  | Phi => [(0, 0)]
  | _ => [(2, 1)]
  end.
(** The second element of pi is fixed at 5 by bounds, and the first has only an upper bound. *)
Definition example_bounds (k : kind) : option bounds :=
  match k with
  | Pi => Some (fun i _ => match i with 0 => NaN | _ => Num 5 end, fun i _ => match i with 0 => Num 6 | _ => Num 5 end)
  | _ => None
  end.

Ltac decide_reals :=
  repeat match goal with
  | |- context [rltb ?a ?b] => let H := fresh in
      first [assert (H : rltb a b = true) by (unfold rltb; destruct (Rlt_dec a b); [reflexivity|lra])
            |assert (H : rltb a b = false) by (unfold rltb; destruct (Rlt_dec a b); [lra|reflexivity])]; rewrite !H; clear H
  | |- context [reqb ?a ?b] => let H := fresh in
      first [assert (H : reqb a b = true) by (unfold reqb; destruct (Req_EM_T a b); [reflexivity|lra])
            |assert (H : reqb a b = false) by (unfold reqb; destruct (Req_EM_T a b); [lra|reflexivity])]; rewrite !H; clear H
  end.

Lemma example_accepted : exists ps, initialize example_values example_shapes example_bounds true true = Some ps /\
  unfixed ps = [(Sigma, (0, 0)); (Sigma, (1, 1)); (Pi, (0, 0)); (Beta, (1, 0)); (Gamma, (1, 0))] /\
  fixed ps = [(Sigma, (1, 0)); (Pi, (1, 0)); (Gamma, (0, 0))] /\
  eliminated ps = [(Beta, (0, 0))].
Proof.
  unfold initialize, validated_bounds, validated, initialize_matrix.
  cbn -[rltb reqb Rdiv IZR finish]. decide_reals. cbn -[rltb reqb Rdiv IZR finish]. 
  match goal with |- context [is_some ?b] =>
    assert (B : is_some b = true) by (unfold initialize_bounds; cbn -[rltb reqb Rdiv IZR]; decide_reals; reflexivity)
  end.
  rewrite B. cbn [andb]. eexists. split; [reflexivity|]. clear B.
  set (b := fun k => bounds_of (initialize_bounds (matrices example_values example_shapes true k) (example_bounds k) true)).
  change (fun k => bounds_of _) with b.
  assert (V : feqb (fst (b Sigma) 0 0) (snd (b Sigma) 0 0) = false /\ feqb (fst (b Sigma) 1 0) (snd (b Sigma) 1 0) = true /\
    feqb (fst (b Sigma) 1 1) (snd (b Sigma) 1 1) = false /\ feqb (fst (b Pi) 0 0) (snd (b Pi) 0 0) = false /\
    feqb (fst (b Pi) 1 0) (snd (b Pi) 1 0) = true /\ feqb (fst (b Beta) 1 0) (snd (b Beta) 1 0) = false /\
    feqb (fst (b Gamma) 0 0) (snd (b Gamma) 0 0) = true /\ feqb (fst (b Gamma) 1 0) (snd (b Gamma) 1 0) = false).
  { unfold b, initialize_bounds. repeat split; cbn -[rltb reqb Rdiv IZR]; decide_reals; cbn -[rltb reqb Rdiv IZR]; decide_reals; cbn -[rltb reqb Rdiv IZR]; unfold feqb; decide_reals; reflexivity. }
  clearbody b. destruct V as [V1 [V2 [V3 [V4 [V5 [V6 [V7 V8]]]]]]].
  unfold finish. cbn -[feqb IZR default_lower default_upper]. repeat (rewrite ?V1, ?V2, ?V3, ?V4, ?V5, ?V6, ?V7, ?V8; cbn -[feqb IZR default_lower default_upper]). auto.
Qed.

Example C23_applies : exists ps, initialize example_values example_shapes example_bounds true true = Some ps /\
  example_shapes Sigma = [(2, 2)] /\ length (unfixed ps) = 5 /\ In (Pi, (1, 0)) (fixed ps).
Proof.
  destruct example_accepted as [ps [H [U [F _]]]]. exists ps. rewrite U, F. split; [exact H|]. cbn. auto 6.
Qed.
Example C24_applies : exists ps, initialize example_values example_shapes example_bounds true true = Some ps /\
  In (Sigma, (0, 0)) (unfixed ps) /\ entry (mat ps Sigma) 1 0 = Num 0 /\ In (Sigma, (1, 0)) (fixed ps) /\
  In (Beta, (0, 0)) (eliminated ps).
Proof.
  destruct example_accepted as [ps [H [U [F E]]]]. exists ps. rewrite U, F, E. split; [exact H|].
  rewrite (proj2 (C23_values _ _ _ _ _ _ H) _ 1 0 eq_refl) by lia. cbn. auto 6.
Qed.
(** A starting value above its bound. *)
Example C24_applies_rejected :
  initialize example_values example_shapes
    (fun k => match k with Pi => Some (fun _ _ => NaN, fun _ _ => Num 4) | _ => None end) true true = None.
Proof.
  refine (C24_rejected _ _ _ _ _ Pi _ _ 1 0 _ (or_introl _) eq_refl eq_refl _ _ (or_intror _)); [discriminate|cbn; lia|cbn; lia|].
  cbn. decide_reals. reflexivity.
Qed.
Example C69_applies : exists ps theta, initialize example_values example_shapes example_bounds true true = Some ps /\
  length theta = length (unfixed ps) /\ (forall x, In x theta -> fnan x = false).
Proof.
  destruct example_accepted as [ps [H [U _]]]. exists ps, [Num 1; Num (-1); Num 9; PInf; Num 0]. rewrite U.
  split; [exact H|]. split; [reflexivity|]. intros x Hx. repeat (destruct Hx as [<-|Hx]; [reflexivity|]). destruct Hx.
Qed.

(** Gamma: the table's blanks are at the locations of fixed elements of beta.  Here the first element of gamma
    is fixed, yet its standard error is printed, and the table would not change if the second were fixed. *)
Theorem C70_gamma_refuted : exists values shapes bv bounded nans ps i,
  initialize values shapes bv bounded nans = Some ps /\ In (Gamma, (i, 0)) (fixed ps) /\ gamma_se_printed ps i = true.
Proof.
  destruct example_accepted as [ps [H [U [F E]]]].
  exists example_values, example_shapes, example_bounds, true, true, ps, 0. split; [exact H|].
  unfold gamma_se_printed, vector_se_printed, fixed_indices. rewrite F. cbn. auto.
Qed.
Print Assumptions C70_gamma_refuted.
(** Conversely, the standard error of an estimated element of gamma is blank when the element of beta at
    the same location is fixed. *)
Theorem C70_gamma_follows_beta ps i : In (Beta, (i, 0)) (fixed ps) -> gamma_se_printed ps i = false.
Proof.
  intro H. unfold gamma_se_printed, vector_se_printed, fixed_indices. rewrite negb_false_iff. apply existsb_exists. exists i.
  split; [|apply Nat.eqb_refl]. apply in_map_iff. exists (Beta, (i, 0)). split; [reflexivity|]. apply filter_In. auto.
Qed.
Print Assumptions C70_gamma_follows_beta.
Example C70_applies : exists ps, initialize example_values example_shapes example_bounds true true = Some ps /\
  ncols (mat ps Beta) <= 1 /\ 1 < nrows (mat ps Beta) /\ beta_se_printed ps 1 = true /\
  nonlinear_se_printed ps Sigma 0 0 = true /\ nonlinear_se_printed ps Sigma 1 0 = false.
Proof.
  destruct example_accepted as [ps [H [U [F E]]]]. exists ps. split; [exact H|].
  rewrite (proj1 (C23_values _ _ _ _ _ _ H) Beta _ eq_refl) by discriminate.
  unfold beta_se_printed, vector_se_printed, fixed_indices, nonlinear_se_printed. rewrite U, F. cbn. auto 7.
Qed.
