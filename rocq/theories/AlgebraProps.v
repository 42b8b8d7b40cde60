(** Theorems about half-vectors and covariances of sigma squared: C32. *)
From Coq Require Import Reals List Bool Arith Lia Lra.
From Verif Require Import Base AlgebraModel AlgebraSpec AlgebraProofs ResultsSpec ResultsProofs ParamsModel ParamsProofs.
Import ListNotations.
Local Open Scope nat_scope.
Notation position := AlgebraModel.position.
Notation mat := AlgebraModel.mat.

(** Half-vectors stack the columns of the lower triangle, vectors stack columns. *)
Theorem C32_vech n A : vech n A = half_vector n A /\ forall i j, i < n -> vec n A (j * n + i) = A i j.
Proof. split; [apply vech_half_vector|intros; apply vec_at; assumption]. Qed.
Print Assumptions C32_vech.

(** L vec(A) = vech(A). *)
Theorem C32_elimination n A u : u < n * (n + 1) / 2 ->
  mv (n * n) (elimination_matrix n) (vec n A) u = at_ (half_vector n A) u.
Proof. intro H. rewrite <- vech_half_vector. exact (elimination_vec n A u H). Qed.
Print Assumptions C32_elimination.

(** D vech(S) = vec(S) for symmetric S. *)
Theorem C32_duplication n S q : symmetric n S -> q < n * n ->
  mv (n * (n + 1) / 2) (duplication_matrix n) (at_ (half_vector n S)) q = vec n S q.
Proof. intros HS H. rewrite <- vech_half_vector. exact (duplication_vech n S q HS H). Qed.
Print Assumptions C32_duplication.

(** K vec(A) = vec(A'). *)
Theorem C32_commutation n A q : q < n * n -> mv (n * n) (commutation_matrix n) (vec n A) q = vec n (tr A) q.
Proof. exact (commutation_vec n A q). Qed.
Print Assumptions C32_commutation.

(** Conversions of half-vectors are inverted by half-vectorisation, and the other way around for lower
    triangular and for symmetric matrices; full matrices are symmetric. *)
Theorem C32_conversions n :
  (forall x, List.length x = n * (n + 1) / 2 ->
     half_vector n (vech_to_lower n x) = x /\ half_vector n (vech_to_full n x) = x /\
     lower_triangular n (vech_to_lower n x) /\ symmetric n (vech_to_full n x)) /\
  (forall A, lower_triangular n A -> same n n (vech_to_lower n (half_vector n A)) A) /\
  (forall S, symmetric n S -> same n n (vech_to_full n (half_vector n S)) S).
Proof.
  split; [|split].
  - intros x L. rewrite <- !vech_half_vector. split; [apply vech_lower, L|]. split; [apply vech_full, L|].
    split; [|apply full_symmetric, L]. intros i j Hi Hj H. rewrite lower_at by assumption.
    destruct (Nat.leb_spec j i); [lia|reflexivity].
  - intros A H. rewrite <- vech_half_vector. apply lower_vech, H.
  - intros S H. rewrite <- vech_half_vector. apply full_vech, H.
Qed.
Print Assumptions C32_conversions.

(** The Jacobian used for sigma squared is the derivative of vech(sigma sigma') along any lower
    triangular change of sigma, whatever the pseudo-inverse. *)
Theorem C32_jacobian n P sigma H u : pseudo_inverse (n * n) (n * (n + 1) / 2) (duplication_matrix n) P ->
  lower_triangular n H -> u < n * (n + 1) / 2 ->
  derivable_pt_lim (fun t => at_ (half_vector n (squared n (moved sigma H t))) u) 0
    (mv (n * (n + 1) / 2) (sigma_squared_jacobian n P sigma) (at_ (half_vector n H)) u).
Proof.
  intros HP HL Hu. rewrite <- vech_half_vector.
  assert (E : forall f g l, (forall t, f t = g t) -> derivable_pt_lim f 0 l -> derivable_pt_lim g 0 l).
  { intros f g l Hfg D eps He. destruct (D eps He) as [d Hd]. exists d. intros h Hh Hlt. rewrite <- !Hfg. apply Hd; assumption. }
  refine (E _ _ _ _ (jacobian_exact n P HP sigma H u HL Hu)). intro t. rewrite <- vech_half_vector. reflexivity.
Qed.
Print Assumptions C32_jacobian.

(** If the given covariances are those of vech of random changes of sigma, then the computed ones are those of the
    implied first-order changes of vech(sigma sigma'). *)
Theorem C32_delta_method n P sigma K p (H : nat -> mat) (C : mat) :
  pseudo_inverse (n * n) (n * (n + 1) / 2) (duplication_matrix n) P -> (forall k, k < K -> lower_triangular n (H k)) ->
  (forall a b, a < n * (n + 1) / 2 -> b < n * (n + 1) / 2 ->
     expect K p (fun k => (at_ (half_vector n (H k)) a * at_ (half_vector n (H k)) b)%R) = C a b) ->
  let change k := half_vector n (fun i j => (mm n (H k) (tr sigma) i j + mm n sigma (tr (H k)) i j)%R) in
  forall u v, u < n * (n + 1) / 2 -> v < n * (n + 1) / 2 ->
    sigma_squared_covariances n P sigma C u v = expect K p (fun k => (at_ (change k) u * at_ (change k) v)%R).
Proof.
  intros HP HL HC change u v Hu Hv. set (h := n * (n + 1) / 2) in *. set (J := sigma_squared_jacobian n P sigma).
  assert (E : forall k w, k < K -> w < h -> at_ (change k) w = sumn h (fun a => (J w a * at_ (half_vector n (H k)) a)%R)).
  { intros k w Hk Hw. unfold change. rewrite <- !vech_half_vector. symmetry. apply (jacobian_direction n P HP); [apply HL, Hk|exact Hw]. }
  rewrite (expect_ext K p _ (fun k => (sumn h (fun a => sumn h (fun b =>
    (J u a * J v b) * (at_ (half_vector n (H k)) a * at_ (half_vector n (H k)) b))))%R)).
  - unfold sigma_squared_covariances, mm, tr, expect. change (half n) with h. fold J.
    transitivity (sumn h (fun a => sumn h (fun b => (J u a * J v b * C a b)%R))).
    + rewrite sumn_swap. apply sumn_ext. intros b _. rewrite <- sumn_scal_r. apply sumn_ext. intros; ring.
    + rewrite (sumn_ext K _ (fun k => sumn h (fun a => sumn h (fun b =>
        (p k * ((J u a * J v b) * (at_ (half_vector n (H k)) a * at_ (half_vector n (H k)) b)))%R)))).
      * rewrite (sumn_swap K h). apply sumn_ext. intros a Ha. rewrite (sumn_swap K h). apply sumn_ext. intros b Hb.
        rewrite <- (HC a b Ha Hb). unfold expect. rewrite <- sumn_scal. apply sumn_ext. intros; ring.
      * intros k Hk. rewrite <- sumn_scal. apply sumn_ext. intros a _. rewrite <- sumn_scal. reflexivity.
  - intros k Hk. rewrite !E by assumption. rewrite <- sumn_scal_r. apply sumn_ext. intros a _.
    rewrite <- sumn_scal. apply sumn_ext. intros; ring.
Qed.
Print Assumptions C32_delta_method.

(** The covariances that are given are those of the elements of sigma in theta, in the order of
    half-vectors, with zeros for fixed elements. *)
Theorem C32_extracted values shapes bv bounded nans ps n :
  initialize values shapes bv bounded nans = Some ps -> shapes Sigma = [(n, n)] ->
  forall cov i j i' j', j <= i -> i < nrows (ParamsModel.mat ps Sigma) -> j' <= i' -> i' < nrows (ParamsModel.mat ps Sigma) ->
  let at' := fun i j => position (nrows (ParamsModel.mat ps Sigma)) i j in
  (forall m m', nth_error (unfixed ps) m = Some (Sigma, (i, j)) -> nth_error (unfixed ps) m' = Some (Sigma, (i', j')) ->
     extract_sigma_vector_covariances ps cov (at' i j) (at' i' j') = cov m m') /\
  (~ In (Sigma, (i, j)) (unfixed ps) \/ ~ In (Sigma, (i', j')) (unfixed ps) ->
     extract_sigma_vector_covariances ps cov (at' i j) (at' i' j') = 0%R).
Proof.
  intros I S cov i j i' j' H1 H2 H3 H4 at'.
  assert (E : forall N, vech_indices N = map (fun p => (snd p, fst p)) (triu_indices N 0)).
  { intro N. unfold vech_indices, triu_indices. generalize (seq 0 N). intro l. induction l as [|r l IH]; [reflexivity|].
    cbn [flat_map]. rewrite map_app, IH, map_map, Nat.add_0_r. reflexivity. }
  assert (Q : forall i j, j <= i -> i < nrows (ParamsModel.mat ps Sigma) ->
    nth_error (vech_indices (nrows (ParamsModel.mat ps Sigma))) (at' i j) = Some (i, j)).
  { intros a b A B. rewrite E, nth_error_map. unfold at'. rewrite position_nth by assumption. reflexivity. }
  exact (accepted_extract I S cov (at' i j) (at' i' j') (i, j) (i', j') (Q i j H1 H2) (Q i' j' H3 H4)).
Qed.
Print Assumptions C32_extracted.

(** Pseudo-inverses of duplication matrices exist for all dimensions: they average symmetric entries. *)
Example C32_applies n : pseudo_inverse (n * n) (n * (n + 1) / 2) (duplication_matrix n) (averages n).
Proof. exact (averages_pseudo n). Qed.
Example C32_applies_values : half_vector 3 (fun i j => INR (10 * i + j)) = map INR [0; 10; 20; 11; 21; 22] /\
  lower_triangular 2 (fun i j => if Nat.leb j i then 1%R else 0%R) /\
  (forall n, 3 * (3 + 1) / 2 = 6 /\ symmetric n (fun i j => INR (i * j))).
Proof.
  split; [reflexivity|]. split; [intros i j _ _ H; destruct (Nat.leb_spec j i); [lia|reflexivity]|].
  intro n. split; [reflexivity|]. intros i j _ _. rewrite Nat.mul_comm. reflexivity.
Qed.
