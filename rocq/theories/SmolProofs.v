(** Proofs about sparse grids and polynomials. *)
From Coq Require Import Reals Lra Lia List Bool Arith.
From Verif Require Import Base IntegModel IntegSpec IntegProofs SmolSpec.
Import ListNotations.
Local Open Scope R_scope.

(* ---------- Differences of sequences ---------- *)

Fixpoint conv (f : nat -> R) (fs : list (nat -> R)) (q : nat) : R :=
  match fs with
  | [] => f q
  | g :: fs => sumn (S q) (fun j => f (q - j)%nat * conv g fs j)
  end.
Fixpoint trunc (fs : list (nat -> R)) (L : nat) : R :=
  match fs with
  | [] => 1
  | f :: fs => sumn (S L) (fun s => backward f s * trunc fs (L - s))
  end.

Lemma telescope f L : sumn (S L) (backward f) = f L.
Proof.
  induction L as [|L IH]; [cbn; ring|]. cbn [sumn] in IH |- *. rewrite IH. cbn [backward]. ring.
Qed.
Lemma backward_left f G q : backward (fun q => sumn (S q) (fun j => f (q - j)%nat * G j)) q = sumn (S q) (fun j => backward f (q - j) * G j).
Proof.
  destruct q as [|r]; [reflexivity|]. unfold backward at 1.
  change (sumn (S (S r)) (fun j => f (S r - j)%nat * G j)) with (sumn (S r) (fun j => f (S r - j)%nat * G j) + f (S r - S r)%nat * G (S r)).
  change (sumn (S (S r)) (fun j => backward f (S r - j) * G j)) with (sumn (S r) (fun j => backward f (S r - j) * G j) + backward f (S r - S r) * G (S r)).
  rewrite Nat.sub_diag. cbn [backward].
  assert (E : sumn (S r) (fun j => backward f (S r - j) * G j) = sumn (S r) (fun j => f (S r - j)%nat * G j) - sumn (S r) (fun j => f (r - j)%nat * G j)).
  { rewrite <- sumn_minus. apply sumn_ext. intros j Hj. replace (S r - j)%nat with (S (r - j)) by lia. cbn [backward]. ring. }
  rewrite E. ring.
Qed.
Lemma conv_swap f G q : sumn (S q) (fun j => f (q - j)%nat * G j) = sumn (S q) (fun j => G (q - j)%nat * f j).
Proof.
  rewrite sumn_reverse. apply sumn_ext. intros j Hj. replace (q - (S q - 1 - j))%nat with j by lia. replace (S q - 1 - j)%nat with (q - j)%nat by lia. ring.
Qed.
Lemma backward_ext f g q : (forall s, (s <= q)%nat -> f s = g s) -> backward f q = backward g q.
Proof. intros H. destruct q as [|q]; cbn [backward]; rewrite !H by lia; reflexivity. Qed.
Lemma backward_right f G q : backward (fun q => sumn (S q) (fun j => f (q - j)%nat * G j)) q = sumn (S q) (fun j => f (q - j)%nat * backward G j).
Proof.
  rewrite (backward_ext _ (fun q => sumn (S q) (fun j => G (q - j)%nat * f j))) by (intros s _; apply conv_swap).
  rewrite backward_left. rewrite (conv_swap (backward G) f). reflexivity.
Qed.
Lemma alternating_0 g L : alternating 0 g L = g L.
Proof.
  unfold alternating. rewrite sumn_first. cbn [binomial pow]. rewrite Nat.sub_0_r.
  rewrite (sumn_ext L _ (fun _ => 0)); [rewrite sumn_zero; cbn; ring|]. intros k _. cbn [binomial INR]. ring.
Qed.
Lemma alternating_conv n : forall h G L, alternating n (fun q => sumn (S q) (fun j => h (q - j)%nat * G j)) L = sumn (S L) (fun s => h s * alternating n G (L - s)).
Proof.
  induction n as [|n IH]; intros h G L.
  - rewrite alternating_0. rewrite conv_swap. apply sumn_ext. intros s _. rewrite alternating_0. ring.
  - rewrite alternating_step. rewrite (alternating_ext n _ (fun q => sumn (S q) (fun j => h (q - j)%nat * backward G j))) by (intros s _; apply backward_right).
    rewrite IH. apply sumn_ext. intros s _. rewrite alternating_step. reflexivity.
Qed.
Lemma alternating_trunc fs : forall f L, alternating (length fs) (conv f fs) L = trunc (f :: fs) L.
Proof.
  induction fs as [|g fs IH]; intros f L.
  - cbn [length conv]. rewrite (alternating_ext 0 _ f) by reflexivity. rewrite alternating_0, <- telescope. cbn [trunc]. apply sumn_ext. intros s _. ring.
  - cbn [length]. rewrite alternating_step.
    rewrite (alternating_ext _ _ (fun q => sumn (S q) (fun j => backward f (q - j) * conv g fs j))) by (intros s _; exact (backward_left f (conv g fs) s)).
    rewrite alternating_conv. change (trunc (f :: g :: fs) L) with (sumn (S L) (fun s => backward f s * trunc (g :: fs) (L - s))).
    apply sumn_ext. intros s _. rewrite IH. reflexivity.
Qed.

(* ---------- Products of univariate rules ---------- *)

Fixpoint along (fs : list (nat -> R)) (c : list nat) : R :=
  match fs, c with
  | f :: fs, k :: c => f k * along fs c
  | _, _ => 1
  end.
Lemma conv_compositions fs : forall f q, suml (along (f :: fs)) (compositions (length fs) q) = conv f fs q.
Proof.
  induction fs as [|g fs IH]; intros f q.
  - cbn. ring.
  - cbn [length compositions]. rewrite suml_flat_map, suml_seq. cbn [conv]. apply sumn_ext. intros j _. cbn [plus]. rewrite suml_map, <- IH, <- suml_scal.
    apply suml_ext. intros c _. reflexivity.
Qed.
Lemma iterated_along (r : nat -> rule) hs : forall c, length c = length hs ->
  iterated (map r (map S c)) (product_of hs) = along (map (fun h l => univariate (r (S l)) h) hs) c.
Proof.
  induction hs as [|h hs IH]; intros [|k c] H; cbn in H; try lia; [reflexivity|]. cbn [map iterated product_of along]. rewrite <- IH by lia.
  unfold univariate. rewrite <- suml_scal_r. apply suml_ext. intros p _. rewrite iterated_scal. ring.
Qed.
Lemma combination_alternating t d level G : (1 <= d)%nat -> (1 <= level)%nat ->
  combination t d level (seq (level - d) (level - (level - d))) G = alternating (d - 1) (fun q => suml G (map (map S) (compositions (d - 1) q))) (level - 1).
Proof.
  intros D L. unfold combination. rewrite suml_seq. set (m := (level - (level - d))%nat).
  transitivity (sumn m (fun k => (-1) ^ k * INR (binomial (d - 1) k) * suml G (map (map S) (compositions (d - 1) (level - 1 - k))))).
  - rewrite sumn_reverse. apply sumn_ext. intros k Hk. unfold m in Hk.
    replace (level - d + (m - 1 - k))%nat with (level - 1 - k)%nat by (unfold m; lia).
    unfold combination_coefficient. replace (level - (level - 1 - k) - 1)%nat with k by lia.
    replace (binomial (d - 1) (d + (level - 1 - k) - level)) with (binomial (d - 1) k) by (apply binomial_sym; lia). reflexivity.
  - unfold alternating. replace (S (level - 1)) with (m + (level - m))%nat by (unfold m; lia).
    destruct (Nat.le_gt_cases d level) as [C|C].
    + symmetry. apply sumn_extend. intros k Hk. rewrite binomial_above by (unfold m in Hk; lia). cbn. ring.
    + replace (level - m)%nat with 0%nat by (unfold m; lia). rewrite Nat.add_0_r. reflexivity.
Qed.
Lemma combination_products t level h hs : (1 <= level)%nat ->
  combination t (S (length hs)) level (seq (level - S (length hs)) (level - (level - S (length hs))))
    (fun levels => iterated (map (fun l => whole (half t l)) levels) (product_of (h :: hs))) =
  trunc (map (fun h l => univariate (whole (half t (S l))) h) (h :: hs)) (level - 1).
Proof.
  intros L. rewrite combination_alternating by lia. replace (S (length hs) - 1)%nat with (length hs) by lia. cbn [map]. rewrite <- alternating_trunc, map_length.
  apply alternating_ext. intros q _. rewrite <- conv_compositions, map_length, suml_map. apply suml_ext. intros c Hc.
  apply compositions_iff in Hc. rewrite (iterated_along (fun l => whole (half t l)) (h :: hs)) by (cbn; lia). reflexivity.
Qed.

(* ---------- Errors ---------- *)

Lemma sumn_split a b (f : nat -> R) : sumn (a + b) f = sumn a f + sumn b (fun k => f (a + k)%nat).
Proof. induction b as [|b IH]; [rewrite Nat.add_0_r; cbn; ring|]. rewrite Nat.add_succ_r. cbn [sumn]. rewrite IH. ring. Qed.
Lemma sumn_Rabs n f : Rabs (sumn n f) <= sumn n (fun k => Rabs (f k)).
Proof. induction n as [|n IH]; cbn [sumn]; [rewrite Rabs_R0; lra|]. eapply Rle_trans; [apply Rabs_triang|]. lra. Qed.
(** A dimension: moments by level, the exact moment, the level from which moments are accurate, the variation and the error. *)
Record dim := Dim { d_f : nat -> R; d_mu : R; d_c : nat; d_a : R; d_e : R }.
Definition fine (L0 : nat) (x : dim) : Prop :=
  0 <= d_e x /\ sumn (S (d_c x)) (fun s => Rabs (backward (d_f x) s)) <= d_a x /\
  ((d_c x <= L0)%nat -> Rabs (d_f x (d_c x) - d_mu x) + sumn (L0 - d_c x) (fun k => Rabs (backward (d_f x) (S (d_c x) + k))) <= d_e x).
Definition prod (l : list R) : R := fold_right Rmult 1 l.
Definition sums (xs : list dim) : list R := map (fun x => d_a x + d_e x) xs.
Lemma fine_nonneg L0 x : fine L0 x -> 0 <= d_a x.
Proof. intros [_ [A _]]. eapply Rle_trans; [|exact A]. apply sumn_nonneg. intros k _. apply Rabs_pos. Qed.
Lemma prod_nonneg l : (forall x, In x l -> 0 <= x) -> 0 <= prod l.
Proof. induction l as [|a l IH]; intros H; cbn; [lra|]. apply Rmult_le_pos; [apply H; left; reflexivity|apply IH; intros x Hx; apply H; right; exact Hx]. Qed.
Lemma sumn_le_more a b f : (forall k, 0 <= f k) -> (a <= b)%nat -> sumn a f <= sumn b f.
Proof.
  intros P H. replace b with (a + (b - a))%nat by lia. rewrite sumn_split. assert (0 <= sumn (b - a) (fun k => f (a + k)%nat)) by (apply sumn_nonneg; intros k _; apply P). lra.
Qed.
Lemma fine_total L0 x L : fine L0 x -> (L <= L0)%nat -> sumn (S L) (fun s => Rabs (backward (d_f x) s)) <= d_a x + d_e x.
Proof.
  intros [E [A B]] H. destruct (Nat.le_gt_cases L (d_c x)) as [C|C].
  - eapply Rle_trans; [apply (sumn_le_more (S L) (S (d_c x))); [intros k; apply Rabs_pos|lia]|]. lra.
  - assert (B' := B ltac:(lia)). replace (S L) with (S (d_c x) + (L - d_c x))%nat by lia. rewrite sumn_split.
    assert (M : sumn (L - d_c x) (fun k => Rabs (backward (d_f x) (S (d_c x) + k))) <= sumn (L0 - d_c x) (fun k => Rabs (backward (d_f x) (S (d_c x) + k)))).
    { apply sumn_le_more; [intros k; apply Rabs_pos|lia]. }
    assert (P := Rabs_pos (d_f x (d_c x) - d_mu x)). lra.
Qed.
Lemma fine_mean L0 x : fine L0 x -> (d_c x <= L0)%nat -> Rabs (d_mu x) <= d_a x + d_e x.
Proof.
  intros [E [A B]] H. assert (B' := B H).
  assert (N : 0 <= sumn (L0 - d_c x) (fun k => Rabs (backward (d_f x) (S (d_c x) + k)))) by (apply sumn_nonneg; intros k _; apply Rabs_pos).
  assert (F : Rabs (d_f x (d_c x)) <= d_a x).
  { rewrite <- telescope. eapply Rle_trans; [apply sumn_Rabs|exact A]. }
  replace (d_mu x) with (d_f x (d_c x) - (d_f x (d_c x) - d_mu x)) by ring. eapply Rle_trans; [apply Rabs_triang|]. rewrite Rabs_Ropp. lra.
Qed.
Lemma trunc_bound L0 xs : (forall x, In x xs -> fine L0 x) -> forall L, (L <= L0)%nat -> Rabs (trunc (map d_f xs) L) <= prod (sums xs).
Proof.
  induction xs as [|x xs IH]; intros F L H; cbn [map trunc sums prod fold_right]; [rewrite Rabs_R1; lra|].
  assert (IH' := IH (fun y Hy => F y (or_intror Hy))). set (P := prod (sums xs)) in *. change (fold_right Rmult 1 (map (fun x => d_a x + d_e x) xs)) with P.
  eapply Rle_trans; [apply sumn_Rabs|]. eapply Rle_trans; [apply (sumn_le (S L) _ (fun s => Rabs (backward (d_f x) s) * P))|].
  - intros s _. rewrite Rabs_mult. apply Rmult_le_compat_l; [apply Rabs_pos|apply IH'; lia].
  - rewrite sumn_scal_r. apply Rmult_le_compat_r; [|apply (fine_total L0); [apply F; left; reflexivity|exact H]].
    eapply Rle_trans; [apply Rabs_pos|]. apply (IH' 0%nat). lia.
Qed.
Lemma means_bound L0 xs : (forall x, In x xs -> fine L0 x /\ (d_c x <= L0)%nat) -> Rabs (prod (map d_mu xs)) <= prod (sums xs).
Proof.
  induction xs as [|x xs IH]; intros F; cbn [map sums prod fold_right]; [rewrite Rabs_R1; lra|]. rewrite Rabs_mult.
  destruct (F x (or_introl eq_refl)) as [F1 F2].
  apply Rmult_le_compat; [apply Rabs_pos|apply Rabs_pos|apply (fine_mean L0); assumption|apply IH; intros y Hy; apply F; right; exact Hy].
Qed.
Definition needed (xs : list dim) : nat := fold_right plus 0%nat (map d_c xs).
Lemma trunc_error L0 xs : (forall x, In x xs -> fine L0 x) -> forall L, (needed xs <= L <= L0)%nat ->
  Rabs (trunc (map d_f xs) L - prod (map d_mu xs)) <= prod (sums xs) - prod (map d_a xs).
Proof.
  induction xs as [|x xs IH]; intros F L [H1 H2].
  - cbn. replace (1 - 1) with 0 by ring. rewrite Rabs_R0. lra.
  - unfold needed in H1. cbn [map fold_right] in H1. fold (needed xs) in H1.
    assert (Fx := F x (or_introl eq_refl)). assert (Fs := fun y Hy => F y (or_intror Hy)). assert (IH' := IH Fs).
    set (f := d_f x). set (c := d_c x) in *. set (M := prod (map d_mu xs)). set (P := prod (sums xs)). set (Q := prod (map d_a xs)).
    assert (MB : Rabs M <= P).
    { apply (means_bound L0). intros y Hy. split; [apply Fs; exact Hy|]. assert (d_c y <= needed xs)%nat; [|lia].
      clear - Hy. unfold needed. induction xs as [|z xs IHx]; [destruct Hy|]. cbn. destruct Hy as [->|Hy]; [lia|]. specialize (IHx Hy). lia. }
    cbn [map trunc]. change (prod (sums (x :: xs))) with ((d_a x + d_e x) * P). change (prod (d_mu x :: map d_mu xs)) with (d_mu x * M).
    change (prod (d_a x :: map d_a xs)) with (d_a x * Q).
    set (T := fun s => trunc (map d_f xs) (L - s)%nat). change (trunc (map d_f xs)) with (trunc (map d_f xs)) in *.
    change (sumn (S L) (fun s => backward (d_f x) s * trunc (map d_f xs) (L - s))) with (sumn (S L) (fun s => backward f s * T s)).
    replace (S L) with (S c + (L - c))%nat by lia. rewrite sumn_split.
    assert (E1 : sumn (S c) (fun s => backward f s * T s) = sumn (S c) (fun s => backward f s * (T s - M)) + f c * M).
    { rewrite <- (telescope f c), <- sumn_scal_r, <- sumn_plus. apply sumn_ext. intros s _. ring. }
    rewrite E1.
    replace (sumn (S c) (fun s => backward f s * (T s - M)) + f c * M + sumn (L - c) (fun k => backward f (S c + k) * T (S c + k)%nat) - d_mu x * M)
      with (sumn (S c) (fun s => backward f s * (T s - M)) + ((f c - d_mu x) * M + sumn (L - c) (fun k => backward f (S c + k) * T (S c + k)%nat))) by ring.
    assert (P0 : 0 <= P) by (eapply Rle_trans; [apply Rabs_pos|exact MB]).
    assert (B1 : Rabs (sumn (S c) (fun s => backward f s * (T s - M))) <= d_a x * (P - Q)).
    { eapply Rle_trans; [apply sumn_Rabs|]. eapply Rle_trans; [apply (sumn_le (S c) _ (fun s => Rabs (backward f s) * (P - Q)))|].
      - intros s Hs. rewrite Rabs_mult. apply Rmult_le_compat_l; [apply Rabs_pos|]. apply IH'. lia.
      - rewrite sumn_scal_r. apply Rmult_le_compat_r; [|apply Fx]. eapply Rle_trans; [apply Rabs_pos|]. apply (IH' (L - 0)%nat). lia. }
    assert (B2 : Rabs ((f c - d_mu x) * M) <= Rabs (f c - d_mu x) * P) by (rewrite Rabs_mult; apply Rmult_le_compat_l; [apply Rabs_pos|exact MB]).
    assert (B3 : Rabs (sumn (L - c) (fun k => backward f (S c + k) * T (S c + k)%nat)) <= sumn (L0 - c) (fun k => Rabs (backward f (S c + k))) * P).
    { eapply Rle_trans; [apply sumn_Rabs|]. eapply Rle_trans; [apply (sumn_le (L - c) _ (fun k => Rabs (backward f (S c + k)) * P))|].
      - intros k Hk. rewrite Rabs_mult. apply Rmult_le_compat_l; [apply Rabs_pos|]. apply (trunc_bound L0); [exact Fs|lia].
      - rewrite sumn_scal_r. apply Rmult_le_compat_r; [exact P0|]. apply (sumn_le_more (L - c) (L0 - c) (fun k => Rabs (backward f (S c + k)))); [intros k; apply Rabs_pos|lia]. }
    assert (B4 : (Rabs (f c - d_mu x) + sumn (L0 - c) (fun k => Rabs (backward f (S c + k)))) * P <= d_e x * P).
    { apply Rmult_le_compat_r; [exact P0|]. apply Fx. fold c. lia. }
    eapply Rle_trans; [apply Rabs_triang|]. eapply Rle_trans; [apply Rplus_le_compat; [exact B1|apply Rabs_triang]|]. lra.
Qed.

(* ---------- Moments ---------- *)

Lemma moment_nonneg k : 0 <= normal_moment k /\ 0 <= normal_moment (S k).
Proof.
  induction k as [|k [IH1 IH2]]; [cbn; lra|]. split; [exact IH2|]. change (normal_moment (S (S k))) with (INR (k + 1) * normal_moment k).
  apply Rmult_le_pos; [apply pos_INR|exact IH1].
Qed.
Definition dim_of (t : quadrature_tables) (level : nat) (eps : R) (k : nat) : dim :=
  Dim (fun l => univariate (whole (half t (S l))) (fun a => a ^ k)) (normal_moment k) (k / 2) (variation t k) (INR (2 * level - 1) * eps * normal_moment k).
Lemma dim_fine t level eps k : (1 <= level)%nat -> 0 <= eps -> accurate_rules t level eps -> fine (level - 1) (dim_of t level eps k).
Proof.
  intros L E A. assert (M := proj1 (moment_nonneg k)). assert (EM : 0 <= eps * normal_moment k) by (apply Rmult_le_pos; assumption).
  unfold fine, dim_of. cbn [d_f d_mu d_c d_a d_e]. set (f := fun l => univariate (whole (half t (S l))) (fun a => a ^ k)).
  split; [apply Rmult_le_pos; [apply Rmult_le_pos; [apply pos_INR|exact E]|exact M]|]. split.
  - unfold variation. rewrite sumn_first. cbn [backward]. apply Req_le. f_equal. apply sumn_ext. intros l _. unfold f, moment_of.
    replace (l + 2)%nat with (S (S l)) by lia. replace (l + 1)%nat with (S l) by lia. reflexivity.
  - intros H. assert (D := Nat.div_mod k 2 ltac:(lia)). assert (D' := Nat.mod_upper_bound k 2 ltac:(lia)). set (c := (k / 2)%nat) in *.
    assert (NR : forall l, (c <= l)%nat -> (l <= level - 1)%nat -> Rabs (f l - normal_moment k) <= eps * normal_moment k).
    { intros l H1 H2. apply (A (S l) k); lia. }
    eapply Rle_trans; [apply Rplus_le_compat; [apply NR; lia|]|].
    + apply (sumn_le (level - 1 - c) _ (fun _ => 2 * (eps * normal_moment k))). intros j Hj. change (S c + j)%nat with (S (c + j)). cbn [backward].
      assert (N1 := NR (S (c + j)) ltac:(lia) ltac:(lia)). assert (N2 := NR (c + j)%nat ltac:(lia) ltac:(lia)).
      replace (f (S (c + j)) - f (c + j)%nat) with (f (S (c + j)) - normal_moment k - (f (c + j)%nat - normal_moment k)) by ring.
      eapply Rle_trans; [apply Rabs_triang|]. rewrite Rabs_Ropp. lra.
    + assert (CS : sumn (level - 1 - c) (fun _ => 2 * (eps * normal_moment k)) = INR (level - 1 - c) * (2 * (eps * normal_moment k))).
      { generalize (level - 1 - c)%nat. induction n as [|n IH]; [cbn; ring|]. cbn [sumn]. rewrite IH, S_INR. ring. }
      rewrite CS. assert (LE : INR (level - 1 - c) <= INR (level - 1)) by (apply le_INR; lia).
      replace (INR (2 * level - 1)) with (2 * INR (level - 1) + 1).
      * assert (INR (level - 1 - c) * (2 * (eps * normal_moment k)) <= INR (level - 1) * (2 * (eps * normal_moment k))) by (apply Rmult_le_compat_r; lra). lra.
      * replace (2 * level - 1)%nat with (2 * (level - 1) + 1)%nat by lia. rewrite plus_INR, mult_INR. cbn. ring.
Qed.
Definition halves (ks : list nat) : nat := fold_right plus 0%nat (map (fun k => k / 2)%nat ks).
Lemma halves_degree ks : (2 * halves ks <= degree ks)%nat.
Proof.
  induction ks as [|k ks IH]; [cbn; lia|]. unfold halves, degree in *. cbn [map fold_right].
  assert (H := Nat.mul_div_le k 2 ltac:(lia)). lia.
Qed.
Definition whole_combination (t : quadrature_tables) (d level : nat) (F : list R -> R) : R :=
  combination t d level (seq (level - d) (level - (level - d))) (fun levels => iterated (map (fun l => whole (half t l)) levels) F).
Lemma combination_monomial t level ks : (1 <= level)%nat -> ks <> [] ->
  whole_combination t (length ks) level (monomial ks) = trunc (map d_f (map (dim_of t level 0) ks)) (level - 1).
Proof.
  intros L N. destruct ks as [|k ks]; [congruence|]. unfold whole_combination, monomial. cbn [map length].
  assert (E := combination_products t level (fun a => a ^ k) (map (fun k a => a ^ k) ks) L). rewrite map_length in E.
  etransitivity; [exact E|]. cbn [map]. rewrite !map_map. reflexivity.
Qed.
Lemma amplified_prod t level eps ks : amplified (map (variation t) ks) (map (fun k => INR (2 * level - 1) * eps * normal_moment k) ks) = prod (sums (map (dim_of t level eps) ks)).
Proof. induction ks as [|k ks IH]; [reflexivity|]. cbn [map amplified sums prod fold_right]. rewrite IH. reflexivity. Qed.
Lemma combination_error t level eps ks : (1 <= level)%nat -> ks <> [] -> 0 <= eps -> accurate_rules t level eps -> (halves ks < level)%nat ->
  Rabs (whole_combination t (length ks) level (monomial ks) - normal_monomial ks) <= error_bound t level eps ks.
Proof.
  intros L N E A H. rewrite combination_monomial by assumption. unfold error_bound. rewrite amplified_prod.
  replace (map d_f (map (dim_of t level 0) ks)) with (map d_f (map (dim_of t level eps) ks)) by (rewrite !map_map; reflexivity).
  replace (normal_monomial ks) with (prod (map d_mu (map (dim_of t level eps) ks))) by (rewrite map_map; reflexivity).
  replace (fold_right Rmult 1 (map (variation t) ks)) with (prod (map d_a (map (dim_of t level eps) ks))) by (rewrite map_map; reflexivity).
  apply (trunc_error (level - 1)).
  - intros x Hx. apply in_map_iff in Hx. destruct Hx as [k [<- _]]. apply dim_fine; assumption.
  - unfold needed. rewrite map_map. cbn [d_c dim_of]. fold (halves ks). lia.
Qed.
Lemma error_exact t level ks : error_bound t level 0 ks = 0.
Proof.
  unfold error_bound. assert (E : amplified (map (variation t) ks) (map (fun k => INR (2 * level - 1) * 0 * normal_moment k) ks) = fold_right Rmult 1 (map (variation t) ks)); [|rewrite E; ring].
  induction ks as [|k ks IH]; [reflexivity|]. cbn [map amplified fold_right]. rewrite IH. ring.
Qed.

(* ---------- Grids ---------- *)

Lemma grid_integral t fuel d level nodes weights : equal_lengths t -> (1 <= d)%nat ->
  (forall x w, get_quadrature_data t 1 = Some (x, w) -> nth 0 x 0 = 0) ->
  sparse_grid t fuel d level = Some (nodes, weights) ->
  length nodes = length weights /\ forall F, integral nodes weights F = whole_combination t d level F / whole_combination t d level (fun _ => 1).
Proof. intros E D M H. exact (sparse_grid_rows t fuel d level nodes weights E D M H). Qed.
Lemma monomial_zero d : forall x, monomial (repeat 0%nat d) x = 1.
Proof.
  induction d as [|d IH]; intros [|a x]; unfold monomial; cbn [repeat map product_of]; try reflexivity. unfold monomial in IH. rewrite IH. cbn. ring.
Qed.
Lemma combination_ext t d level F G : (forall x, F x = G x) -> whole_combination t d level F = whole_combination t d level G.
Proof.
  intros H. unfold whole_combination, combination. apply suml_ext. intros q _. f_equal. apply suml_ext. intros l _. apply iterated_ext. exact H.
Qed.
Lemma combination_unit t d level : (1 <= d)%nat -> whole_combination t d level (fun _ => 1) = whole_combination t (length (repeat 0%nat d)) level (monomial (repeat 0%nat d)).
Proof. intros D. rewrite repeat_length. apply combination_ext. intros x. symmetry. apply monomial_zero. Qed.
Lemma normal_monomial_zero d : normal_monomial (repeat 0%nat d) = 1.
Proof. unfold normal_monomial. induction d as [|d IH]; cbn [repeat map fold_right normal_moment]; [reflexivity|]. rewrite IH. ring. Qed.
Lemma halves_zero d : halves (repeat 0%nat d) = 0%nat.
Proof. induction d as [|d IH]; [reflexivity|]. unfold halves in *. cbn [repeat map fold_right]. rewrite IH. reflexivity. Qed.
Lemma repeat_nonempty {A} (a : A) d : (1 <= d)%nat -> repeat a d <> [].
Proof. destruct d; [lia|discriminate]. Qed.
Lemma total_error t d level eps : (1 <= d)%nat -> (1 <= level)%nat -> 0 <= eps -> accurate_rules t level eps ->
  Rabs (whole_combination t d level (fun _ => 1) - 1) <= error_bound t level eps (repeat 0%nat d).
Proof.
  intros D L E A. rewrite combination_unit by exact D. rewrite <- (normal_monomial_zero d). apply combination_error; try assumption.
  - apply repeat_nonempty. exact D.
  - rewrite halves_zero. lia.
Qed.
Lemma monomials_exact t fuel level nodes weights ks : equal_lengths t -> (forall x w, get_quadrature_data t 1 = Some (x, w) -> nth 0 x 0 = 0) ->
  exact_rules t level -> ks <> [] -> (halves ks < level)%nat -> sparse_grid t fuel (length ks) level = Some (nodes, weights) ->
  integral nodes weights (monomial ks) = normal_monomial ks.
Proof.
  intros EL Mid A N H G. assert (D : (1 <= length ks)%nat) by (destruct ks; [congruence|cbn; lia]). assert (L : (1 <= level)%nat) by lia.
  destruct (grid_integral t fuel (length ks) level nodes weights EL D Mid G) as [_ ->].
  assert (E1 := combination_error t level 0 ks L N (Rle_refl 0) A H). assert (E2 := total_error t (length ks) level 0 D L (Rle_refl 0) A).
  rewrite error_exact in E1, E2.
  assert (Z : forall a, Rabs a <= 0 -> a = 0) by (intros a Ha; assert (Q := Rabs_pos a); destruct (Req_dec a 0) as [|Ne]; [assumption|apply Rabs_pos_lt in Ne; lra]).
  apply Z in E1, E2. replace (whole_combination t (length ks) level (fun _ => 1)) with 1 by lra. lra.
Qed.
Lemma integral_linear {A B} (nodes : list A) weights (l : list B) (F : B -> A -> R) c :
  integral nodes weights (fun x => suml (fun b => c b * F b x) l) = suml (fun b => c b * integral nodes weights (F b)) l.
Proof.
  unfold integral. induction l as [|b l IH]; cbn [suml]; [apply suml_zero; intros p _; ring|]. rewrite <- IH, <- suml_scal, <- suml_plus. apply suml_ext. intros p _. ring.
Qed.

(* ---------- Odd monomials ---------- *)

Lemma trunc_zero fs : (exists f, In f fs /\ forall l, f l = 0) -> forall L, trunc fs L = 0.
Proof.
  induction fs as [|g fs IH]; intros [f [Hf Z]] L; [destruct Hf|]. cbn [trunc]. rewrite (sumn_ext (S L) _ (fun _ => 0)); [apply sumn_zero|]. intros s _.
  destruct Hf as [->|Hf].
  - assert (B : backward f s = 0) by (destruct s; cbn [backward]; rewrite !Z; ring). rewrite B. ring.
  - rewrite IH by (exists f; split; assumption). ring.
Qed.
Lemma odd_univariate (r : rule) k : Nat.odd k = true -> univariate (whole r) (fun a => a ^ k) = 0.
Proof.
  intros O. apply Nat.odd_spec in O. destruct O as [j ->]. unfold univariate, whole. rewrite suml_flat_map. apply suml_zero. intros p _.
  destruct (Req_EM_T (fst p) 0) as [E|E]; cbn [suml fst snd].
  - rewrite E, pow_i by lia. ring.
  - rewrite !pow_add, !pow_mult. replace ((- fst p) ^ 2) with (fst p ^ 2) by ring. ring.
Qed.
Lemma odd_monomials t fuel level nodes weights ks : equal_lengths t -> (forall x w, get_quadrature_data t 1 = Some (x, w) -> nth 0 x 0 = 0) ->
  (1 <= level)%nat -> (exists k, In k ks /\ Nat.odd k = true) -> sparse_grid t fuel (length ks) level = Some (nodes, weights) ->
  integral nodes weights (monomial ks) = 0.
Proof.
  intros EL Mid L [k [Hk O]] G. assert (N : ks <> []) by (intros ->; destruct Hk). assert (D : (1 <= length ks)%nat) by (destruct ks; [congruence|cbn; lia]).
  destruct (grid_integral t fuel (length ks) level nodes weights EL D Mid G) as [_ ->]. rewrite (combination_monomial t level ks L N), trunc_zero; [unfold Rdiv; ring|].
  exists (d_f (dim_of t level 0 k)). split; [rewrite map_map; apply (in_map (fun k => d_f (dim_of t level 0 k))); exact Hk|]. intros l. apply odd_univariate. exact O.
Qed.

(* ---------- Means and covariances ---------- *)

Lemma iterated_ext_length rules : forall F G, (forall x, length x = length rules -> F x = G x) -> iterated rules F = iterated rules G.
Proof.
  induction rules as [|r rules IH]; intros F G H; cbn [iterated]; [apply H; reflexivity|]. unfold univariate. apply suml_ext. intros p _. f_equal.
  apply IH. intros x Hx. apply H. cbn. lia.
Qed.
Lemma combination_ext_length t d level F G : (1 <= d)%nat -> (forall x, length x = d -> F x = G x) -> whole_combination t d level F = whole_combination t d level G.
Proof.
  intros D H. unfold whole_combination, combination. apply suml_ext. intros q _. f_equal. apply suml_ext. intros l Hl. apply iterated_ext_length. intros x Hx. apply H.
  rewrite map_length in Hx. apply in_map_iff in Hl. destruct Hl as [m [<- Hm]]. apply compositions_iff in Hm. rewrite map_length in Hx. lia.
Qed.
Lemma integral_ext_length t fuel d level nodes weights F G : equal_lengths t -> (1 <= d)%nat -> (forall x w, get_quadrature_data t 1 = Some (x, w) -> nth 0 x 0 = 0) ->
  sparse_grid t fuel d level = Some (nodes, weights) -> (forall x, length x = d -> F x = G x) -> integral nodes weights F = integral nodes weights G.
Proof.
  intros EL D Mid Gr H. destruct (grid_integral t fuel d level nodes weights EL D Mid Gr) as [_ I]. rewrite !I. f_equal. apply combination_ext_length; assumption.
Qed.
Definition at_i (i k : nat) : nat := if Nat.eqb k i then 1%nat else 0%nat.
Definition exponents (e : nat -> nat) (d : nat) : list nat := map e (seq 0 d).
Lemma monomial_mult (e e' : nat -> nat) (l : list nat) : forall x, monomial (map (fun k => e k + e' k)%nat l) x = monomial (map e l) x * monomial (map e' l) x.
Proof.
  unfold monomial. induction l as [|k l IH]; intros [|a x]; cbn [map product_of]; try ring. rewrite IH, pow_add. ring.
Qed.
Lemma monomial_outside i n : forall a x, (i < a)%nat -> monomial (map (at_i i) (seq a n)) x = 1.
Proof.
  unfold monomial. induction n as [|n IH]; intros a [|b x] H; cbn [seq map product_of]; try reflexivity. rewrite IH by lia. unfold at_i.
  destruct (Nat.eqb_spec a i); [lia|]. cbn. ring.
Qed.
Lemma monomial_at n : forall i a x, length x = n -> (a <= i < a + n)%nat -> monomial (map (at_i i) (seq a n)) x = nth (i - a) x 0.
Proof.
  induction n as [|n IH]; intros i a [|b x] L H; cbn in L; try lia. unfold monomial. cbn [seq map product_of]. fold (monomial (map (at_i i) (seq (S a) n)) x).
  unfold at_i at 1. destruct (Nat.eqb_spec a i) as [->|Ne].
  - rewrite monomial_outside by lia. rewrite Nat.sub_diag. cbn. ring.
  - rewrite IH by lia. replace (i - a)%nat with (S (i - S a)) by lia. cbn. ring.
Qed.
Lemma degree_app (e e' : nat -> nat) (l : list nat) : degree (map (fun k => e k + e' k)%nat l) = (degree (map e l) + degree (map e' l))%nat.
Proof. unfold degree. induction l as [|k l IH]; cbn [map fold_right]; [reflexivity|]. rewrite IH. lia. Qed.
Lemma degree_at i n a : (degree (map (at_i i) (seq a n)) <= 1)%nat /\ ((i < a)%nat -> degree (map (at_i i) (seq a n)) = 0%nat).
Proof.
  unfold degree. revert a. induction n as [|n IH]; intros a; cbn [seq map fold_right]; [lia|]. destruct (IH (S a)) as [B Z].
  assert (E : at_i i a = if Nat.eqb a i then 1%nat else 0%nat) by reflexivity. rewrite E.
  destruct (Nat.eqb_spec a i) as [->|Ne]; split; intros; [rewrite Z by lia; lia|lia|exact B|apply Z; lia].
Qed.
Lemma normal_zero ks : (exists k, In k ks /\ normal_moment k = 0) -> normal_monomial ks = 0.
Proof.
  unfold normal_monomial. induction ks as [|k ks IH]; intros [j [Hj Z]]; [destruct Hj|]. cbn [map fold_right]. destruct Hj as [->|Hj]; [rewrite Z; ring|].
  rewrite IH by (exists j; split; assumption). ring.
Qed.
Lemma normal_one ks : (forall k, In k ks -> normal_moment k = 1) -> normal_monomial ks = 1.
Proof.
  unfold normal_monomial. induction ks as [|k ks IH]; intros H; cbn [map fold_right]; [reflexivity|]. rewrite (H k (or_introl eq_refl)), IH; [ring|].
  intros j Hj. apply H. right. exact Hj.
Qed.
Definition pair_of (i j k : nat) : nat := (at_i i k + at_i j k)%nat.
Lemma exponents_length e d : length (exponents e d) = d.
Proof. unfold exponents. rewrite map_length, seq_length. reflexivity. Qed.
Lemma in_exponents e d k : (k < d)%nat -> In (e k) (exponents e d).
Proof. intros H. apply in_map. apply in_seq. lia. Qed.
Lemma normal_pair d i j : (i < d)%nat -> (j < d)%nat -> normal_monomial (exponents (pair_of i j) d) = if Nat.eqb i j then 1 else 0.
Proof.
  intros Hi Hj. destruct (Nat.eqb_spec i j) as [->|Ne].
  - apply normal_one. intros k Hk. apply in_map_iff in Hk. destruct Hk as [l [<- _]]. unfold pair_of, at_i. destruct (Nat.eqb l j); cbn; ring.
  - apply normal_zero. exists (pair_of i j i). split; [apply in_exponents; exact Hi|]. unfold pair_of, at_i. rewrite Nat.eqb_refl.
    destruct (Nat.eqb_spec i j); [congruence|]. reflexivity.
Qed.
Lemma pair_coordinates d i j x : length x = d -> (i < d)%nat -> (j < d)%nat -> monomial (exponents (pair_of i j) d) x = coordinate i x * coordinate j x.
Proof.
  intros L Hi Hj. unfold exponents, pair_of, coordinate. rewrite monomial_mult, !monomial_at by lia. rewrite !Nat.sub_0_r. reflexivity.
Qed.
Lemma degree_pair d i j : (degree (exponents (pair_of i j) d) <= 2)%nat.
Proof. unfold exponents, pair_of. rewrite degree_app. assert (A := proj1 (degree_at i d 0)). assert (B := proj1 (degree_at j d 0)). lia. Qed.
Lemma integral_taste t fuel d level nodes weights sigma i j (V : nat -> nat -> R) : equal_lengths t -> (1 <= d)%nat -> (forall x w, get_quadrature_data t 1 = Some (x, w) -> nth 0 x 0 = 0) ->
  sparse_grid t fuel d level = Some (nodes, weights) ->
  (forall k l, (k < d)%nat -> (l < d)%nat -> integral nodes weights (fun x => coordinate k x * coordinate l x) = V k l) ->
  integral nodes weights (fun x => taste d sigma i x * taste d sigma j x) = sumn d (fun k => sumn d (fun l => sigma i k * sigma j l * V k l)).
Proof.
  intros EL D Mid G HV.
  transitivity (integral nodes weights (fun x => suml (fun k => sigma i k * suml (fun l => sigma j l * (coordinate k x * coordinate l x)) (seq 0 d)) (seq 0 d))).
  - unfold integral. apply suml_ext. intros p _. f_equal. rewrite suml_seq. unfold taste. rewrite <- sumn_scal_r. apply sumn_ext. intros k Hk. rewrite suml_seq.
    rewrite Rmult_assoc. f_equal. rewrite <- sumn_scal. apply sumn_ext. intros l Hl. cbn [plus]. ring.
  - rewrite (integral_linear nodes weights (seq 0 d) (fun k x => suml (fun l => sigma j l * (coordinate k x * coordinate l x)) (seq 0 d)) (sigma i)).
    rewrite suml_seq. apply sumn_ext. intros k Hk. cbn [plus].
    rewrite (integral_linear nodes weights (seq 0 d) (fun l x => coordinate k x * coordinate l x) (sigma j)). rewrite suml_seq, <- sumn_scal. apply sumn_ext. intros l Hl. cbn [plus].
    rewrite HV by assumption. ring.
Qed.
Lemma integral_mean_taste nodes weights d sigma i : (forall k, (k < d)%nat -> integral nodes weights (coordinate k) = 0) -> integral nodes weights (taste d sigma i) = 0.
Proof.
  intros H. transitivity (integral nodes weights (fun x => suml (fun k => sigma i k * coordinate k x) (seq 0 d))).
  - unfold integral. apply suml_ext. intros p _. f_equal. rewrite suml_seq. reflexivity.
  - rewrite (integral_linear nodes weights (seq 0 d) coordinate (sigma i)). apply suml_zero. intros k Hk. apply in_seq in Hk. rewrite H by lia. ring.
Qed.
Lemma mean_zero t fuel d level nodes weights i : equal_lengths t -> (forall x w, get_quadrature_data t 1 = Some (x, w) -> nth 0 x 0 = 0) ->
  (1 <= level)%nat -> (i < d)%nat -> sparse_grid t fuel d level = Some (nodes, weights) -> integral nodes weights (coordinate i) = 0.
Proof.
  intros EL Mid L Hi G. rewrite (integral_ext_length t fuel d level nodes weights _ (monomial (exponents (at_i i) d)) EL ltac:(lia) Mid G).
  - apply (odd_monomials t fuel level nodes weights _ EL Mid L); [|rewrite exponents_length; exact G]. exists (at_i i i). split; [apply in_exponents; exact Hi|].
    unfold at_i. rewrite Nat.eqb_refl. reflexivity.
  - intros x Hx. unfold exponents. rewrite monomial_at by lia. rewrite Nat.sub_0_r. reflexivity.
Qed.
Lemma covariance_zero t fuel d level nodes weights i j : equal_lengths t -> (forall x w, get_quadrature_data t 1 = Some (x, w) -> nth 0 x 0 = 0) ->
  (1 <= level)%nat -> (i < d)%nat -> (j < d)%nat -> i <> j -> sparse_grid t fuel d level = Some (nodes, weights) -> integral nodes weights (fun x => coordinate i x * coordinate j x) = 0.
Proof.
  intros EL Mid L Hi Hj Ne G. rewrite (integral_ext_length t fuel d level nodes weights _ (monomial (exponents (pair_of i j) d)) EL ltac:(lia) Mid G).
  - apply (odd_monomials t fuel level nodes weights _ EL Mid L); [|rewrite exponents_length; exact G]. exists (pair_of i j i). split; [apply in_exponents; exact Hi|].
    unfold pair_of, at_i. rewrite Nat.eqb_refl. destruct (Nat.eqb_spec i j); [congruence|reflexivity].
  - intros x Hx. symmetry. apply pair_coordinates; assumption.
Qed.
Lemma covariance_exact t fuel d level nodes weights i j : equal_lengths t -> (forall x w, get_quadrature_data t 1 = Some (x, w) -> nth 0 x 0 = 0) ->
  exact_rules t level -> (2 <= level)%nat -> (i < d)%nat -> (j < d)%nat -> sparse_grid t fuel d level = Some (nodes, weights) ->
  integral nodes weights (fun x => coordinate i x * coordinate j x) = if Nat.eqb i j then 1 else 0.
Proof.
  intros EL Mid A L Hi Hj G. rewrite (integral_ext_length t fuel d level nodes weights _ (monomial (exponents (pair_of i j) d)) EL ltac:(lia) Mid G).
  - rewrite (monomials_exact t fuel level nodes weights _ EL Mid A).
    + apply normal_pair; assumption.
    + intros Z. assert (Q := exponents_length (pair_of i j) d). rewrite Z in Q. cbn in Q. lia.
    + assert (Q := halves_degree (exponents (pair_of i j) d)). assert (Q' := degree_pair d i j). lia.
    + rewrite exponents_length. exact G.
  - intros x Hx. symmetry. apply pair_coordinates; assumption.
Qed.

(* ---------- Squares with inexact tables ---------- *)

Definition square_dim (t : quadrature_tables) (level : nat) (eps : R) (k : nat) : dim :=
  Dim (fun l => univariate (whole (half t (S l))) (fun a => a ^ k)) 1 (k / 2) (1 + eps) (INR (2 * level - 1) * eps).
Lemma prod_repeat (c : R) {A} (f : A -> R) l : (forall a, In a l -> f a = c) -> prod (map f l) = c ^ length l.
Proof. intros H. induction l as [|a l IH]; [reflexivity|]. cbn [map prod fold_right length pow]. rewrite (H a (or_introl eq_refl)), <- IH; [reflexivity|]. intros b Hb. apply H. right. exact Hb. Qed.
Lemma squares_error t level eps ks : (1 <= level)%nat -> ks <> [] -> 0 <= eps -> accurate_rules t level eps -> moment_of t 1 2 = 0 ->
  (forall k, In k ks -> k = 0%nat \/ k = 2%nat) -> (halves ks < level)%nat ->
  Rabs (whole_combination t (length ks) level (monomial ks) - 1) <= (1 + 2 * INR level * eps) ^ length ks - 1.
Proof.
  intros L N E A M K H. rewrite combination_monomial by assumption.
  replace (map d_f (map (dim_of t level 0) ks)) with (map d_f (map (square_dim t level eps) ks)) by (rewrite !map_map; reflexivity).
  assert (B := trunc_error (level - 1) (map (square_dim t level eps) ks)). rewrite (prod_repeat 1 d_mu), pow1 in B.
  2: { intros a Ha. apply in_map_iff in Ha. destruct Ha as [k [<- _]]. reflexivity. }
  unfold sums in B. rewrite (prod_repeat (1 + 2 * INR level * eps) (fun x => d_a x + d_e x)), (prod_repeat (1 + eps) d_a) in B.
  2: { intros a Ha. apply in_map_iff in Ha. destruct Ha as [k [<- _]]. reflexivity. }
  2: { intros a Ha. apply in_map_iff in Ha. destruct Ha as [k [<- _]]. cbn [d_a d_e square_dim].
       replace (INR level) with (INR (2 * level - 1) / 2 + / 2); [lra|]. replace (2 * level - 1)%nat with (level + (level - 1))%nat by lia.
       rewrite plus_INR, minus_INR by lia. cbn. lra. }
  rewrite map_length in B.
  eapply Rle_trans; [apply B|].
  - intros x Hx. apply in_map_iff in Hx. destruct Hx as [k [<- Hk]].
    assert (F := dim_fine t level eps k L E A). destruct F as [F1 [F2 F3]]. cbn [d_f d_mu d_c d_a d_e dim_of] in F1, F2, F3.
    assert (NM : normal_moment k = 1) by (destruct (K k Hk) as [->| ->]; cbn; ring). rewrite NM in F1, F3. rewrite Rmult_1_r in F1, F3.
    assert (HK : (k / 2 < level)%nat).
    { clear - H Hk. unfold halves in H. revert H. generalize level. induction ks as [|q ks IH]; intros lv H; [destruct Hk|]. cbn [map fold_right] in H.
      destruct Hk as [->|Hk]; [lia|]. apply (IH Hk). lia. }
    split; [exact F1|]. split; [|exact F3]. cbn [d_f d_c d_a square_dim].
    assert (A1 : Rabs (moment_of t 1 0 - 1) <= eps * 1) by (apply (A 1%nat 0%nat); lia).
    destruct (K k Hk) as [->| ->].
    + change (0 / 2)%nat with 0%nat. cbn [sumn backward]. change (univariate (whole (half t 1)) (fun a : R => a ^ 0)) with (moment_of t 1 0).
      replace (moment_of t 1 0) with (moment_of t 1 0 - 1 + 1) by ring. rewrite Rplus_0_l. eapply Rle_trans; [apply Rabs_triang|]. rewrite Rabs_R1. lra.
    + change (2 / 2)%nat with 1%nat in *. cbn [sumn backward]. change (univariate (whole (half t 1)) (fun a : R => a ^ 2)) with (moment_of t 1 2).
      change (univariate (whole (half t 2)) (fun a : R => a ^ 2)) with (moment_of t 2 2). rewrite M, Rabs_R0, Rminus_0_r.
      assert (A2 : Rabs (moment_of t 2 2 - normal_moment 2) <= eps * normal_moment 2) by (apply (A 2%nat 2%nat); lia). rewrite NM in A2.
      replace (moment_of t 2 2) with (moment_of t 2 2 - 1 + 1) by ring. rewrite !Rplus_0_l. eapply Rle_trans; [apply Rabs_triang|]. rewrite Rabs_R1. lra.
  - unfold needed. rewrite map_map. cbn [d_c square_dim]. fold (halves ks). lia.
  - assert (P : 1 <= (1 + eps) ^ length ks) by (apply pow_R1_Rle; lra). lra.
Qed.
Lemma total_squares t d level eps : (1 <= d)%nat -> (1 <= level)%nat -> 0 <= eps -> accurate_rules t level eps -> moment_of t 1 2 = 0 ->
  Rabs (whole_combination t d level (fun _ => 1) - 1) <= (1 + 2 * INR level * eps) ^ d - 1.
Proof.
  intros D L E A M. rewrite combination_unit by exact D. rewrite <- (repeat_length 0%nat d) at 3. apply squares_error; try assumption.
  - apply repeat_nonempty. exact D.
  - intros k Hk. apply repeat_spec in Hk. left. exact Hk.
  - rewrite halves_zero. lia.
Qed.
Lemma power_bound x d : 0 <= x -> INR d * x <= 1 / 2 -> (1 + x) ^ d <= 1 + 2 * (INR d * x).
Proof.
  intros X. induction d as [|d IH]; intros H; [cbn; lra|]. rewrite S_INR in H |- *. cbn [pow].
  assert (P := pos_INR d). assert (Q : 0 <= INR d * x) by (apply Rmult_le_pos; assumption). assert (IH' := IH ltac:(lra)).
  assert ((1 + x) * (1 + x) ^ d <= (1 + x) * (1 + 2 * (INR d * x))) by (apply Rmult_le_compat_l; lra). nra.
Qed.

(* ---------- Level one ---------- *)

Lemma alternating_first n g : alternating n g 0 = g 0%nat.
Proof. unfold alternating. cbn [sumn]. rewrite binomial_0. cbn. ring. Qed.
Lemma compositions_zero n : compositions n 0 = [repeat 0%nat (S n)].
Proof. induction n as [|n IH]; [reflexivity|]. cbn [compositions seq flat_map]. rewrite IH. reflexivity. Qed.
Lemma level_one t d F w : (1 <= d)%nat -> half t 1 = [(0, w)] -> whole_combination t d 1 F = w ^ d * F (repeat 0 d).
Proof.
  intros D H. unfold whole_combination. rewrite combination_alternating by lia. rewrite alternating_first, compositions_zero. cbn [map suml]. rewrite Rplus_0_r.
  replace (S (d - 1)) with d by lia. clear D. revert F. induction d as [|d IH]; intros F; cbn [repeat map iterated pow]; [ring|].
  unfold univariate. rewrite H. unfold whole. cbn [flat_map fst]. destruct (Req_EM_T 0 0); [|lra]. cbn [app suml fst snd]. rewrite IH. ring.
Qed.

(* ---------- Grids are built ---------- *)

Lemma all_some_ok {A B} (f : A -> option B) l : (forall a, In a l -> f a <> None) -> exists m, all_some (map f l) = Some m.
Proof.
  induction l as [|a l IH]; intros H; [exists []; reflexivity|]. cbn [map all_some]. destruct (f a) as [b|] eqn:E; [|destruct (H a (or_introl eq_refl) E)].
  destruct IH as [m ->]; [intros c Hc; apply H; right; exact Hc|]. exists (b :: m). reflexivity.
Qed.
Lemma total_member l : forall (a : nat), In a l -> (a <= total l)%nat.
Proof. unfold total. induction l as [|b l IH]; intros a H; [destruct H|]. cbn. destruct H as [->|H]; [lia|]. specialize (IH a H). lia. Qed.
Definition enough (d level : nat) : nat := fold_right plus 0%nat (map (fun q => length (compositions (d - 1) q)) (seq 0 level)).
Lemma enough_member d level q : (q < level)%nat -> (length (compositions (d - 1) q) <= enough d level)%nat.
Proof.
  intros H. apply (total_member (map (fun q => length (compositions (d - 1) q)) (seq 0 level))). apply (in_map (fun q => length (compositions (d - 1) q))). apply in_seq. lia.
Qed.
Lemma grid_exists t fuel d level : (1 <= d)%nat -> (1 <= level)%nat -> (enough d level <= fuel)%nat ->
  (forall l, (1 <= l <= level)%nat -> get_quadrature_data t l <> None) ->
  exists nodes weights, sparse_grid t fuel d level = Some (nodes, weights).
Proof.
  intros D L F A. unfold sparse_grid.
  assert (G : forall qs rows, (forall q, In q qs -> (q < level)%nat) -> exists rows', grid_loop t fuel d level rows qs = Some rows').
  { induction qs as [|q qs IH]; intros rows Hq; [exists rows; reflexivity|]. cbn [grid_loop]. unfold grid_step.
    assert (Q := Hq q (or_introl eq_refl)).
    rewrite same_size_compositions; [|exact D|replace (d + q - d)%nat with q by lia; eapply Nat.le_trans; [apply enough_member; exact Q|exact F]].
    replace (d + q - d)%nat with q by lia.
    destruct (all_some_ok (component t (combination_coefficient d level q)) (map (map S) (compositions (d - 1) q))) as [m ->].
    - intros levels Hl. unfold component. destruct (all_some_ok (get_quadrature_data t) levels) as [m ->]; [|discriminate].
      intros a Ha. apply A. apply in_map_iff in Hl. destruct Hl as [c [<- Hc]]. apply in_map_iff in Ha. destruct Ha as [b [<- Hb]].
      apply compositions_iff in Hc. assert (B := total_member c b Hb). lia.
    - cbn [option_map]. apply IH. intros r Hr. apply Hq. right. exact Hr. }
  destruct (G (seq (level - d) (level - (level - d))) []) as [rows ->]; [intros q Hq; apply in_seq in Hq; lia|].
  destruct (get_quadrature_data t 1) as [[x w]|] eqn:E; [|destruct (A 1%nat ltac:(lia) E)]. do 2 eexists. reflexivity.
Qed.
