(** Proofs about half-vectors. *)
From Coq Require Import Reals List Bool Arith Lia Lra FinFun.
From Verif Require Import Base AlgebraModel AlgebraSpec ProgressProofs.
Import ListNotations.
Local Open Scope nat_scope.

Lemma triangle j : 2 * (j * (j + 1) / 2) = j * (j + 1).
Proof.
  assert (E : exists k, j * (j + 1) = 2 * k).
  { induction j as [|j [k H]]; [exists 0; reflexivity|]. exists (k + j + 1). nia. }
  destruct E as [k ->]. rewrite (Nat.mul_comm 2 k), Nat.div_mul by lia. lia.
Qed.

Definition block (n k r : nat) : list (nat * nat) := map (pair r) (seq (r + k) (n - (r + k))).
Definition offset (n k j : nat) : nat := List.length (flat_map (block n k) (seq 0 j)).

Lemma block_length n k r : List.length (block n k r) = n - (r + k).
Proof. unfold block. rewrite map_length, seq_length. reflexivity. Qed.
Lemma offset_next n k j : offset n k (S j) = offset n k j + (n - (j + k)).
Proof. unfold offset. rewrite seq_S, flat_map_app, app_length. cbn [flat_map plus]. rewrite app_nil_r, block_length. reflexivity. Qed.
Lemma offset_value n j : j <= n -> 2 * offset n 0 j + j * j = 2 * (j * n) + j.
Proof.
  induction j as [|j IH]; intro H; [reflexivity|]. rewrite offset_next. specialize (IH ltac:(lia)). nia.
Qed.
Lemma position_offset n i j : j <= i -> i < n -> position n i j = offset n 0 j + (i - j).
Proof. intros A B. unfold position. assert (T := triangle j). assert (O := offset_value n j ltac:(lia)). nia. Qed.
Lemma triu_length n : List.length (triu_indices n 0) = half n.
Proof. fold (offset n 0 n). assert (O := offset_value n n (le_n n)). assert (T := triangle n). unfold half. change (offset n 0 n = n * (n + 1) / 2). nia. Qed.

Lemma triu_nth n k j m : j < n -> m < n - (j + k) -> nth_error (triu_indices n k) (offset n k j + m) = Some (j, j + k + m).
Proof.
  intros A B. unfold triu_indices. fold (block n k). replace n with (j + (1 + (n - S j))) at 2 by lia.
  rewrite !seq_app, !flat_map_app. cbn [plus seq flat_map]. rewrite app_nil_r.
  rewrite nth_error_app2; fold (offset n k j); [|unfold offset; lia]. replace (offset n k j + m - _) with m by (unfold offset; lia).
  rewrite nth_error_app1 by (rewrite block_length; exact B). unfold block. rewrite nth_error_map.
  rewrite (nth_error_nth' _ 0) by (rewrite seq_length; exact B). rewrite seq_nth by exact B. reflexivity.
Qed.

Lemma position_nth n i j : j <= i -> i < n -> nth_error (triu_indices n 0) (position n i j) = Some (j, i).
Proof. intros A B. rewrite position_offset by assumption. rewrite triu_nth by lia. do 2 f_equal. lia. Qed.
Lemma position_lt n i j : j <= i -> i < n -> position n i j < half n.
Proof. intros A B. rewrite <- triu_length. apply nth_error_Some. rewrite position_nth by assumption. discriminate. Qed.
Lemma position_inj n i j i' j' : j <= i -> i < n -> j' <= i' -> i' < n -> position n i j = position n i' j' -> i = i' /\ j = j'.
Proof.
  intros A B C D E. assert (X := position_nth n i j A B). rewrite E, position_nth in X by assumption. injection X. auto.
Qed.
Lemma locate n u : u < half n -> exists i j, j <= i /\ i < n /\ u = position n i j.
Proof.
  assert (G : forall m, m <= n -> u < offset n 0 m -> exists i j, j <= i /\ i < n /\ u = position n i j).
  { induction m as [|m IH]; intros Hm H; [cbn in H; lia|]. rewrite offset_next in H.
    destruct (Nat.lt_ge_cases u (offset n 0 m)) as [L|L]; [apply IH; [lia|exact L]|].
    exists (m + (u - offset n 0 m)), m. split; [lia|]. split; [lia|]. rewrite position_offset; lia. }
  intro H. apply (G n (le_n n)). rewrite <- triu_length in H. exact H.
Qed.
Lemma triu_in n k i j : In (j, i) (triu_indices n k) <-> j + k <= i /\ i < n.
Proof.
  unfold triu_indices. rewrite in_flat_map. split.
  - intros (r & A & B). apply in_map_iff in B. destruct B as (c & E & B). injection E as -> ->. apply in_seq in A, B. lia.
  - intros [A B]. exists j. split; [apply in_seq; lia|]. apply in_map_iff. exists i. split; [reflexivity|apply in_seq; lia].
Qed.

Lemma at_vech n A i j : j <= i -> i < n -> at_ (vech n A) (position n i j) = A i j.
Proof.
  intros H1 H2. unfold at_, vech.
  rewrite (nth_error_nth _ _ 0%R (x := A i j)); [reflexivity|]. rewrite nth_error_map, position_nth by assumption. reflexivity.
Qed.

Lemma vech_half_vector n A : vech n A = half_vector n A.
Proof.
  unfold vech, half_vector, triu_indices. generalize (seq 0 n). intro l. induction l as [|j l IH]; [reflexivity|].
  cbn [flat_map lower_columns]. rewrite map_app, IH, map_map. rewrite Nat.add_0_r. reflexivity.
Qed.

(** Products of indices. *)
Lemma vec_at n A i j : i < n -> vec n A (j * n + i) = A i j.
Proof.
  intro H. unfold vec. rewrite Nat.add_comm, Nat.mod_add by lia. rewrite Nat.mod_small by exact H.
  rewrite Nat.div_add by lia. rewrite Nat.div_small by exact H. reflexivity.
Qed.
Lemma kron_at n A B i j k l : i < n -> k < n -> kron n A B (j * n + i) (l * n + k) = (A j l * B i k)%R.
Proof.
  intros H1 H2. unfold kron. rewrite !(Nat.add_comm (_ * n)), !Nat.mod_add, !Nat.div_add by lia.
  rewrite !Nat.mod_small, !Nat.div_small by assumption. reflexivity.
Qed.
Lemma sum_square m n f : sumn (m * n) f = sumn m (fun b => sumn n (fun a => f (b * n + a))).
Proof.
  induction m as [|m IH]; [reflexivity|]. cbn [sumn]. rewrite <- IH. replace (S m * n) with (m * n + n) by lia. apply sumn_split.
Qed.
Lemma square_index n q : q < n * n -> exists a b, a < n /\ b < n /\ q = b * n + a.
Proof.
  intro H. exists (q mod n), (q / n). assert (n <> 0) by lia. split; [apply Nat.mod_upper_bound; assumption|].
  split; [apply Nat.div_lt_upper_bound; lia|]. rewrite Nat.mul_comm. apply Nat.div_mod. assumption.
Qed.

Lemma sumn_if n k c : sumn n (fun i => if Nat.eqb i k then c i else 0%R) = if Nat.ltb k n then c k else 0%R.
Proof.
  destruct (Nat.ltb_spec k n) as [H|H]; [apply sumn_delta, H|].
  rewrite (sumn_ext n _ (fun _ => 0%R)); [apply sumn_zero|]. intros i Hi. destruct (Nat.eqb_spec i k); [lia|reflexivity].
Qed.

Lemma elimination_at n u a b : a < n -> b < n ->
  elimination_matrix n u (b * n + a) = if Nat.leb b a then unit_vector (position n a b) u else 0%R.
Proof.
  intros Ha Hb. unfold elimination_matrix.
  rewrite (sumn_ext n _ (fun i => if Nat.eqb i a then (if Nat.leb b a then unit_vector (position n a b) u else 0%R) else 0%R)).
  - rewrite sumn_delta by exact Ha. reflexivity.
  - intros i Hi. destruct (Nat.eqb_spec i a) as [->|NE].
    + rewrite (sumn_ext _ _ (fun j => if Nat.eqb j b then unit_vector (position n a j) u else 0%R)).
      * rewrite sumn_if. destruct (Nat.ltb_spec b (a + 1)), (Nat.leb_spec b a); try lia; reflexivity.
      * intros j Hj. rewrite vec_at by exact Ha. unfold unit_matrix. rewrite Nat.eqb_refl. cbn [andb].
        rewrite (Nat.eqb_sym b j). destruct (Nat.eqb j b); ring.
    + rewrite (sumn_ext _ _ (fun _ => 0%R)); [apply sumn_zero|]. intros j Hj. rewrite vec_at by exact Ha. unfold unit_matrix.
      destruct (Nat.eqb_spec a i); [congruence|]. cbn [andb]. ring.
Qed.

Lemma commutation_at n a b c d : a < n -> b < n -> c < n -> d < n ->
  commutation_matrix n (b * n + a) (d * n + c) = if (Nat.eqb d a && Nat.eqb c b)%bool then 1%R else 0%R.
Proof.
  intros Ha Hb Hc Hd. unfold commutation_matrix.
  rewrite (sumn_ext n _ (fun i => if Nat.eqb i b then (if (Nat.eqb d a && Nat.eqb c b)%bool then 1%R else 0%R) else 0%R)).
  - rewrite sumn_delta by exact Hb. reflexivity.
  - intros i Hi. rewrite (sumn_ext n _ (fun j => if Nat.eqb j d then (if (Nat.eqb b i && Nat.eqb a d && Nat.eqb c i)%bool then 1%R else 0%R) else 0%R)).
    + rewrite sumn_delta by exact Hd.
      destruct (Nat.eqb_spec i b) as [->|NE]; [rewrite Nat.eqb_refl, (Nat.eqb_sym a d); reflexivity|].
      destruct (Nat.eqb_spec b i); [congruence|reflexivity].
    + intros j Hj. rewrite kron_at by assumption. unfold tr, unit_matrix. rewrite (Nat.eqb_sym d j).
      destruct (Nat.eqb_spec j d) as [->|]; destruct (Nat.eqb b i), (Nat.eqb c i); cbn [andb]; try ring;
      destruct (Nat.eqb a d); cbn [andb]; ring.
Qed.

(** Sums over squares against unit entries. *)
Lemma square_delta n a b f : a < n -> b < n ->
  sumn (n * n) (fun q => if Nat.eqb q (b * n + a) then f q else 0%R) = f (b * n + a).
Proof. intros Ha Hb. apply sumn_delta. nia. Qed.
Lemma square_eq n a b c d : a < n -> b < n -> c < n -> d < n -> (d * n + c = b * n + a <-> c = a /\ d = b).
Proof. intros Ha Hb Hc Hd. split; [|intros [-> ->]; reflexivity]. intro E. assert (d = b) by nia. subst d. split; [lia|reflexivity]. Qed.

Lemma commutation_row n a b q : a < n -> b < n -> q < n * n ->
  commutation_matrix n (b * n + a) q = if Nat.eqb q (a * n + b) then 1%R else 0%R.
Proof.
  intros Ha Hb Hq. destruct (square_index n q Hq) as (c & d & Hc & Hd & ->). rewrite commutation_at by assumption.
  assert (E := square_eq n b a c d Hb Ha Hc Hd).
  destruct (Nat.eqb_spec (d * n + c) (a * n + b)) as [X|X], (Nat.eqb_spec d a), (Nat.eqb_spec c b); cbn [andb]; try reflexivity; exfalso; tauto.
Qed.
Lemma commute_mv n x a b : a < n -> b < n -> mv (n * n) (commutation_matrix n) x (b * n + a) = x (a * n + b).
Proof.
  intros Ha Hb. unfold mv. rewrite (sumn_ext _ _ (fun q => if Nat.eqb q (a * n + b) then x q else 0%R)).
  - apply square_delta; assumption.
  - intros q Hq. rewrite commutation_row by assumption. destruct (Nat.eqb q (a * n + b)); ring.
Qed.
Lemma commute_mm n X a b u : a < n -> b < n -> mm (n * n) (commutation_matrix n) X (b * n + a) u = X (a * n + b) u.
Proof. intros Ha Hb. exact (commute_mv n (fun q => X q u) a b Ha Hb). Qed.

Lemma commutation_sym n p q : p < n * n -> q < n * n -> commutation_matrix n p q = commutation_matrix n q p.
Proof.
  intros Hp Hq. destruct (square_index n p Hp) as (a & b & Ha & Hb & ->), (square_index n q Hq) as (c & d & Hc & Hd & ->).
  rewrite !commutation_at by assumption. rewrite (Nat.eqb_sym a d), (Nat.eqb_sym b c).
  rewrite (andb_comm (Nat.eqb d a)). reflexivity.
Qed.

Lemma elimination_gram n a b c d : a < n -> b < n -> c < n -> d < n ->
  mm (half n) (tr (elimination_matrix n)) (elimination_matrix n) (b * n + a) (d * n + c)
  = if (Nat.leb b a && Nat.eqb (d * n + c) (b * n + a))%bool then 1%R else 0%R.
Proof.
  intros Ha Hb Hc Hd. unfold mm, tr.
  rewrite (sumn_ext _ _ (fun u => if Nat.eqb u (position n a b) then (if Nat.leb b a then elimination_matrix n u (d * n + c) else 0%R) else 0%R)).
  - rewrite sumn_if, elimination_at by assumption. destruct (Nat.leb_spec b a) as [L|L]; cbn [andb].
    + assert (P := position_lt n a b L Ha). destruct (Nat.ltb_spec (position n a b) (half n)); [|lia].
      unfold unit_vector. assert (E := square_eq n a b c d Ha Hb Hc Hd). assert (I := position_inj n a b c d L Ha).
      destruct (Nat.eqb_spec (d * n + c) (b * n + a)) as [X|X].
      * apply E in X. destruct X as [-> ->]. rewrite Nat.eqb_refl. destruct (Nat.leb_spec b a); [reflexivity|lia].
      * destruct (Nat.leb_spec d c); [|reflexivity]. destruct (Nat.eqb_spec (position n a b) (position n c d)) as [Y|Y]; [|reflexivity].
        exfalso. apply X, E. destruct (I ltac:(assumption) Hc Y). auto.
    + destruct (Nat.ltb (position n a b) (half n)); reflexivity.
  - intros u Hu. rewrite (elimination_at n u a b) by assumption. unfold unit_vector.
    destruct (Nat.leb b a), (Nat.eqb u (position n a b)); ring.
Qed.

(** An entry of the duplication matrix. *)
Definition entry_position (n a b : nat) : nat := position n (Nat.max a b) (Nat.min a b).
Lemma duplication_at n a b u : a < n -> b < n ->
  duplication_matrix n (b * n + a) u = unit_vector (entry_position n a b) u.
Proof.
  intros Ha Hb. unfold duplication_matrix. rewrite commute_mm by assumption. unfold tr at 1 2. rewrite !elimination_at by assumption.
  assert (X : mm (n * n) (mm (n * n) (mm (half n) (tr (elimination_matrix n)) (elimination_matrix n)) (commutation_matrix n))
     (tr (elimination_matrix n)) (b * n + a) u = if Nat.leb b a then elimination_matrix n u (a * n + b) else 0%R).
  { unfold mm at 1. rewrite (sumn_ext _ _ (fun q => if Nat.eqb q (a * n + b) then (if Nat.leb b a then elimination_matrix n u q else 0%R) else 0%R)).
    - apply square_delta; assumption.
    - intros q Hq. unfold tr at 2. assert (E : mm (n * n) (mm (half n) (tr (elimination_matrix n)) (elimination_matrix n)) (commutation_matrix n) (b * n + a) q
        = if Nat.leb b a then commutation_matrix n (b * n + a) q else 0%R).
      { unfold mm at 1. rewrite (sumn_ext _ _ (fun p => if Nat.eqb p (b * n + a) then (if Nat.leb b a then commutation_matrix n p q else 0%R) else 0%R)).
        - apply square_delta; assumption.
        - intros p Hp. destruct (square_index n p Hp) as (c & d & Hc & Hd & ->). rewrite elimination_gram by assumption.
          destruct (Nat.leb b a), (Nat.eqb (d * n + c) (b * n + a)); cbn [andb]; ring. }
      rewrite E, commutation_row by assumption. destruct (Nat.leb b a), (Nat.eqb q (a * n + b)); ring. }
  rewrite X, elimination_at by assumption. unfold entry_position.
  destruct (Nat.leb_spec b a), (Nat.leb_spec a b); try lia.
  - assert (a = b) by lia. subst b. rewrite Nat.max_id, Nat.min_id. ring.
  - rewrite Nat.max_l, Nat.min_r by lia. ring.
  - rewrite Nat.max_r, Nat.min_l by lia. ring.
Qed.
Lemma entry_position_lt n a b : a < n -> b < n -> entry_position n a b < half n.
Proof. intros Ha Hb. apply position_lt; lia. Qed.

(** ** Identities *)
Lemma elimination_vec n A u : u < half n -> mv (n * n) (elimination_matrix n) (vec n A) u = at_ (vech n A) u.
Proof.
  intro H. destruct (locate n u H) as (i & j & H1 & H2 & ->). rewrite at_vech by assumption. unfold mv.
  rewrite (sumn_ext _ _ (fun q => if Nat.eqb q (j * n + i) then vec n A q else 0%R)).
  - rewrite square_delta by lia. apply vec_at. exact H2.
  - intros q Hq. destruct (square_index n q Hq) as (a & b & Ha & Hb & ->). rewrite elimination_at by assumption. unfold unit_vector.
    assert (E := square_eq n i j a b H2 ltac:(lia) Ha Hb).
    destruct (Nat.eqb_spec (b * n + a) (j * n + i)) as [X|X].
    + apply E in X. destruct X as [-> ->]. destruct (Nat.leb_spec j i); [|lia]. rewrite Nat.eqb_refl. ring.
    + destruct (Nat.leb_spec b a); [|ring]. destruct (Nat.eqb_spec (position n i j) (position n a b)) as [Y|Y]; [|ring].
      exfalso. apply X, E. destruct (position_inj n i j a b H1 H2 ltac:(assumption) Ha Y). auto.
Qed.

Lemma duplication_vech n S q : symmetric n S -> q < n * n -> mv (half n) (duplication_matrix n) (at_ (vech n S)) q = vec n S q.
Proof.
  intros HS Hq. destruct (square_index n q Hq) as (a & b & Ha & Hb & ->). rewrite vec_at by exact Ha. unfold mv.
  rewrite (sumn_ext _ _ (fun u => if Nat.eqb u (entry_position n a b) then at_ (vech n S) u else 0%R)).
  - rewrite sumn_delta by (apply entry_position_lt; assumption). unfold entry_position. rewrite at_vech by lia.
    destruct (Nat.le_ge_cases a b); [rewrite Nat.max_r, Nat.min_l by lia; apply HS; assumption|].
    rewrite Nat.max_l, Nat.min_r by lia. reflexivity.
  - intros u Hu. rewrite duplication_at by assumption. unfold unit_vector. destruct (Nat.eqb u (entry_position n a b)); ring.
Qed.

Lemma commutation_vec n A q : q < n * n -> mv (n * n) (commutation_matrix n) (vec n A) q = vec n (tr A) q.
Proof.
  intro Hq. destruct (square_index n q Hq) as (a & b & Ha & Hb & ->). rewrite commute_mv by assumption.
  rewrite !vec_at by assumption. reflexivity.
Qed.

Lemma elimination_lower n H q : lower_triangular n H -> q < n * n ->
  mv (half n) (tr (elimination_matrix n)) (at_ (vech n H)) q = vec n H q.
Proof.
  intros HL Hq. destruct (square_index n q Hq) as (a & b & Ha & Hb & ->). rewrite vec_at by exact Ha. unfold mv, tr.
  rewrite (sumn_ext _ _ (fun u => if Nat.eqb u (position n a b) then (if Nat.leb b a then at_ (vech n H) u else 0%R) else 0%R)).
  - rewrite sumn_if. destruct (Nat.leb_spec b a) as [L|L].
    + assert (P := position_lt n a b L Ha). destruct (Nat.ltb_spec (position n a b) (half n)); [|lia]. apply at_vech; assumption.
    + rewrite HL by assumption. destruct (Nat.ltb (position n a b) (half n)); reflexivity.
  - intros u Hu. rewrite elimination_at by assumption. unfold unit_vector. destruct (Nat.leb b a), (Nat.eqb u (position n a b)); ring.
Qed.

(** ** Conversions *)
Lemma put_all_other A l v r c : ~ In (r, c) l -> put_all A l v r c = A r c.
Proof.
  unfold put_all. revert A v. induction l as [|p l IH]; intros A [|x v] H; cbn [combine fold_left]; try reflexivity.
  rewrite IH by (intro X; apply H; right; exact X). unfold put. cbn [fst snd].
  destruct (Nat.eqb_spec r (fst p)) as [E1|], (Nat.eqb_spec c (snd p)) as [E2|]; cbn [andb]; try reflexivity.
  exfalso. apply H. left. rewrite E1, E2. destruct p. reflexivity.
Qed.
Lemma put_all_at A l v r c k x : NoDup l -> nth_error l k = Some (r, c) -> nth_error v k = Some x -> put_all A l v r c = x.
Proof.
  unfold put_all. revert A v k. induction l as [|p l IH]; intros A v k ND Hk Hv; [destruct k; discriminate|].
  destruct v as [|y v]; [destruct k; discriminate|]. cbn [combine fold_left]. inversion ND as [|? ? NI ND']; subst.
  destruct k as [|k].
  - cbn in Hk, Hv. injection Hk as ->. injection Hv as ->. cbn [fst snd].
    change (put_all (put A r c x) l v r c = x). rewrite put_all_other by exact NI. unfold put. rewrite !Nat.eqb_refl. reflexivity.
  - apply (IH _ v k); assumption.
Qed.
Lemma triu_nodup n k : NoDup (triu_indices n k).
Proof.
  unfold triu_indices. generalize (seq_NoDup n 0). generalize (seq 0 n). intros l. induction l as [|r l IH]; intro ND; [constructor|].
  inversion ND as [|? ? NI ND']; subst. cbn [flat_map].
  assert (G : forall (a b : list (nat * nat)), NoDup a -> NoDup b -> (forall x, In x a -> ~ In x b) -> NoDup (a ++ b)).
  { induction a as [|x a IHa]; intros b A B C; [exact B|]. inversion A; subst. cbn. constructor.
    - intro I. apply in_app_iff in I. destruct I as [I|I]; [contradiction|]. apply (C x); [left; reflexivity|exact I].
    - apply IHa; try assumption. intros y Hy. apply C. right. exact Hy. }
  apply G.
  - apply FinFun.Injective_map_NoDup; [intros x y E; injection E; auto|apply seq_NoDup].
  - apply IH, ND'.
  - intros x I J. apply in_map_iff in I. destruct I as (c & <- & _). apply in_flat_map in J. destruct J as (r' & J1 & J2).
    apply in_map_iff in J2. destruct J2 as (c' & E & _). injection E as -> _. contradiction.
Qed.

Lemma lower_at n x i j : List.length x = half n -> i < n -> j < n ->
  vech_to_lower n x i j = if Nat.leb j i then at_ x (position n i j) else 0%R.
Proof.
  intros L Hi Hj. unfold vech_to_lower, tr. destruct (Nat.leb_spec j i) as [H|H].
  - apply (put_all_at _ _ _ _ _ (position n i j)); [apply triu_nodup|apply position_nth; assumption|].
    unfold at_. apply nth_error_nth'. rewrite L. apply position_lt; assumption.
  - apply put_all_other. rewrite triu_in. lia.
Qed.
Lemma full_at n x i j : List.length x = half n -> i < n -> j < n -> vech_to_full n x i j = at_ x (entry_position n i j).
Proof.
  intros L Hi Hj. unfold vech_to_full, entry_position. destruct (Nat.lt_ge_cases i j) as [H|H].
  - rewrite Nat.max_r, Nat.min_l by lia. 
    assert (I : In (i, j) (triu_indices n 1)) by (apply triu_in; lia). apply In_nth_error in I. destruct I as [k I].
    apply (put_all_at _ _ _ _ _ k); [apply triu_nodup|exact I|]. rewrite nth_error_map, I. cbn [option_map fst snd]. f_equal.
    unfold tr. rewrite lower_at by assumption. destruct (Nat.leb_spec i j); [reflexivity|lia].
  - rewrite Nat.max_l, Nat.min_r by lia. rewrite put_all_other by (rewrite triu_in; lia).
    rewrite lower_at by assumption. destruct (Nat.leb_spec j i); [reflexivity|lia].
Qed.
Lemma vech_length n A : List.length (vech n A) = half n.
Proof. unfold vech. rewrite map_length. apply triu_length. Qed.
Lemma vech_unique n A x : List.length x = half n -> (forall i j, j <= i -> i < n -> A i j = at_ x (position n i j)) -> vech n A = x.
Proof.
  intros L H. apply (nth_ext _ _ 0%R 0%R); [rewrite vech_length; symmetry; exact L|].
  intros u Hu. rewrite vech_length in Hu. destruct (locate n u Hu) as (i & j & H1 & H2 & ->).
  transitivity (A i j); [apply at_vech; assumption|apply H; assumption].
Qed.
Lemma vech_lower n x : List.length x = half n -> vech n (vech_to_lower n x) = x.
Proof.
  intro L. apply vech_unique; [exact L|]. intros i j H1 H2. rewrite lower_at by (try assumption; lia).
  destruct (Nat.leb_spec j i); [reflexivity|lia].
Qed.
Lemma vech_full n x : List.length x = half n -> vech n (vech_to_full n x) = x.
Proof.
  intro L. apply vech_unique; [exact L|]. intros i j H1 H2. rewrite full_at by (try assumption; lia).
  unfold entry_position. rewrite Nat.max_l, Nat.min_r by lia. reflexivity.
Qed.
Lemma full_symmetric n x : List.length x = half n -> symmetric n (vech_to_full n x).
Proof.
  intros L i j Hi Hj. rewrite !full_at by assumption. unfold entry_position. rewrite Nat.max_comm, Nat.min_comm. reflexivity.
Qed.
Lemma lower_vech n A : lower_triangular n A -> same n n (vech_to_lower n (vech n A)) A.
Proof.
  intros H i j Hi Hj. rewrite lower_at by (try assumption; apply vech_length). destruct (Nat.leb_spec j i); [apply at_vech; assumption|].
  symmetry. apply H; assumption.
Qed.
Lemma full_vech n S : symmetric n S -> same n n (vech_to_full n (vech n S)) S.
Proof.
  intros H i j Hi Hj. rewrite full_at by (try assumption; apply vech_length). unfold entry_position.
  rewrite at_vech by lia. destruct (Nat.le_ge_cases i j); [rewrite Nat.max_r, Nat.min_l by lia; apply H; assumption|].
  rewrite Nat.max_l, Nat.min_r by lia. reflexivity.
Qed.

(** ** The pseudo-inverse of the duplication matrix *)
Lemma mm_mv m A k B x i : mv m (mm k A B) x i = mv k A (mv m B x) i.
Proof.
  unfold mv, mm. rewrite (sumn_ext m _ (fun q => sumn k (fun l => (A i l * (B l q * x q))%R))).
  - rewrite sumn_swap. apply sumn_ext. intros l _. rewrite sumn_scal. reflexivity.
  - intros q _. rewrite <- sumn_scal_r. apply sumn_ext. intros; ring.
Qed.
Lemma mm_assoc m k A B C i j : mm m (mm k A B) C i j = mm k A (mm m B C) i j.
Proof. exact (mm_mv m A k B (fun q => C q j) i). Qed.
Lemma mv_ext m A x y i : (forall k, k < m -> x k = y k) -> mv m A x i = mv m A y i.
Proof. intro H. unfold mv. apply sumn_ext. intros k Hk. rewrite H by exact Hk. reflexivity. Qed.
Lemma mv_row m A B x i : (forall k, k < m -> A i k = B i k) -> mv m A x i = mv m B x i.
Proof. intro H. unfold mv. apply sumn_ext. intros k Hk. rewrite H by exact Hk. reflexivity. Qed.

Section Pseudo.
  Variables (n : nat) (P : mat).
  Let h := half n.
  Let D := duplication_matrix n.
  Let L := elimination_matrix n.
  Let K := commutation_matrix n.
  Hypothesis penrose : pseudo_inverse (n * n) h D P.

  Lemma left_of_duplication u v : u < h -> v < h -> mm (n * n) L D u v = if Nat.eqb u v then 1%R else 0%R.
  Proof.
    intros Hu Hv. destruct (locate n u Hu) as (i & j & H1 & H2 & Eu). 
    unfold mm. rewrite (sumn_ext _ _ (fun q => if Nat.eqb q (j * n + i) then D q v else 0%R)).
    - rewrite square_delta by lia. unfold D. rewrite duplication_at by lia. unfold unit_vector, entry_position.
      rewrite Nat.max_l, Nat.min_r by lia. rewrite <- Eu, Nat.eqb_sym. reflexivity.
    - intros q Hq. destruct (square_index n q Hq) as (a & b & Ha & Hb & ->). unfold L. rewrite elimination_at by assumption. unfold unit_vector.
      assert (E := square_eq n i j a b H2 ltac:(lia) Ha Hb). rewrite Eu.
      destruct (Nat.eqb_spec (b * n + a) (j * n + i)) as [X|X].
      + apply E in X. destruct X as [-> ->]. destruct (Nat.leb_spec j i); [|lia]. rewrite Nat.eqb_refl. ring.
      + destruct (Nat.leb_spec b a); [|ring]. destruct (Nat.eqb_spec (position n i j) (position n a b)) as [Y|Y]; [|ring].
        exfalso. apply X, E. destruct (position_inj n i j a b H1 H2 ltac:(assumption) Ha Y). auto.
  Qed.

  Lemma identity_mm X u v : u < h -> mm h (fun i j => if Nat.eqb i j then 1%R else 0%R) X u v = X u v.
  Proof.
    intro Hu. unfold mm. rewrite (sumn_ext _ _ (fun k => if Nat.eqb k u then X k v else 0%R)); [apply (sumn_delta h u (fun k => X k v)), Hu|].
    intros k _. rewrite (Nat.eqb_sym u k). destruct (Nat.eqb k u); ring.
  Qed.

  (** pinv(D) D = I. *)
  Lemma pinv_duplication u v : u < h -> v < h -> mm (n * n) P D u v = if Nat.eqb u v then 1%R else 0%R.
  Proof.
    intros Hu Hv. destruct penrose as (E & _).
    assert (A : mm (n * n) L (mm (n * n) (mm h D P) D) u v = mm (n * n) P D u v).
    { transitivity (mm h (mm (n * n) L D) (mm (n * n) P D) u v).
      - rewrite mm_assoc. unfold mm at 1 3. apply sumn_ext. intros q Hq. f_equal. apply mm_assoc.
      - transitivity (mm h (fun i j => if Nat.eqb i j then 1%R else 0%R) (mm (n * n) P D) u v); [|apply identity_mm, Hu].
        unfold mm at 1 4. apply sumn_ext. intros k Hk. rewrite left_of_duplication by assumption. reflexivity. }
    rewrite <- A. transitivity (mm (n * n) L D u v); [|apply left_of_duplication; assumption].
    unfold mm at 1 4. apply sumn_ext. intros q Hq. f_equal. apply E; assumption.
  Qed.

  (** D' K = D'. *)
  Lemma duplication_commute u q : q < n * n -> mm (n * n) (tr D) K u q = tr D u q.
  Proof.
    intro Hq. destruct (square_index n q Hq) as (a & b & Ha & Hb & ->).
    transitivity (mm (n * n) K D (b * n + a) u).
    - unfold mm, tr. apply sumn_ext. intros p Hp. unfold K. rewrite (commutation_sym n p) by (try assumption; nia). ring.
    - unfold K. rewrite commute_mm by assumption. unfold tr, D. rewrite !duplication_at by assumption.
      unfold entry_position. rewrite Nat.max_comm, Nat.min_comm. reflexivity.
  Qed.

  (** pinv(D) K = pinv(D). *)
  Lemma pinv_commute u q : u < h -> q < n * n -> mm (n * n) P K u q = P u q.
  Proof.
    intros Hu Hq. destruct penrose as (_ & E & S & _).
    assert (R : forall p, p < n * n -> P u p = mm h (mm (n * n) P (tr P)) (tr D) u p).
    { intros p Hp. rewrite <- (E u p Hu Hp). rewrite mm_assoc. rewrite (mm_assoc h (n * n) P (tr P) (tr D)).
      unfold mm at 1 3. apply sumn_ext. intros k Hk. f_equal. rewrite <- (S k p Hk Hp). unfold tr, mm. apply sumn_ext. intros; ring. }
    transitivity (mm (n * n) (mm h (mm (n * n) P (tr P)) (tr D)) K u q).
    - unfold mm at 1 2. apply sumn_ext. intros p Hp. rewrite R by exact Hp. reflexivity.
    - rewrite mm_assoc. rewrite (R q Hq). unfold mm at 1 4. apply sumn_ext. intros v Hv. f_equal. apply duplication_commute, Hq.
  Qed.

  Lemma pinv_vec_symmetric S u : symmetric n S -> u < h -> mv (n * n) P (vec n S) u = at_ (vech n S) u.
  Proof.
    intros HS Hu. transitivity (mv (n * n) P (mv h D (at_ (vech n S))) u).
    - apply mv_ext. intros q Hq. symmetry. apply duplication_vech; assumption.
    - rewrite <- mm_mv. unfold mv. rewrite (sumn_ext _ _ (fun v => if Nat.eqb v u then at_ (vech n S) v else 0%R)); [apply sumn_delta, Hu|].
      intros v Hv. rewrite pinv_duplication by assumption. rewrite (Nat.eqb_sym u v). destruct (Nat.eqb v u); ring.
  Qed.

  (** Twice pinv(D) vec(M) = vech(M + M'). *)
  Lemma pinv_vec M u : u < h -> (2 * mv (n * n) P (vec n M) u)%R = at_ (vech n (fun i j => (M i j + tr M i j)%R)) u.
  Proof.
    intro Hu. rewrite <- pinv_vec_symmetric by (try exact Hu; intros i j _ _; unfold tr; ring).
    assert (E : mv (n * n) P (vec n M) u = mv (n * n) P (vec n (tr M)) u).
    { transitivity (mv (n * n) (mm (n * n) P K) (vec n M) u).
      - apply mv_row. intros q Hq. symmetry. apply pinv_commute; assumption.
      - rewrite mm_mv. apply mv_ext. intros q Hq. apply commutation_vec, Hq. }
    replace (2 * mv (n * n) P (vec n M) u)%R with (mv (n * n) P (vec n M) u + mv (n * n) P (vec n (tr M)) u)%R by (rewrite <- E; ring).
    unfold mv. rewrite <- sumn_plus. apply sumn_ext. intros q _. unfold vec, tr. ring.
  Qed.

  Lemma kron_vec sigma H q : q < n * n -> mv (n * n) (kron n sigma identity) (vec n H) q = vec n (mm n H (tr sigma)) q.
  Proof.
    intro Hq. destruct (square_index n q Hq) as (a & b & Ha & Hb & ->). rewrite vec_at by exact Ha. unfold mv, mm, tr.
    rewrite sum_square. apply sumn_ext. intros k Hk.
    rewrite (sumn_ext _ _ (fun c => if Nat.eqb c a then (H c k * sigma b k)%R else 0%R)); [apply sumn_delta, Ha|].
    intros c Hc. rewrite kron_at, vec_at by assumption. unfold identity. rewrite (Nat.eqb_sym a c). destruct (Nat.eqb c a); ring.
  Qed.

  Lemma jacobian_direction sigma H u : lower_triangular n H -> u < h ->
    mv h (sigma_squared_jacobian n P sigma) (at_ (vech n H)) u
    = at_ (vech n (fun i j => (mm n H (tr sigma) i j + mm n sigma (tr H) i j)%R)) u.
  Proof.
    intros HL Hu. unfold sigma_squared_jacobian. rewrite mm_mv.
    rewrite (mv_ext _ _ _ (vec n H)) by (intros q Hq; apply elimination_lower; assumption).
    rewrite mm_mv. rewrite (mv_ext _ _ _ (vec n (mm n H (tr sigma)))) by (intros q Hq; apply kron_vec, Hq).
    transitivity (2 * mv (n * n) P (vec n (mm n H (tr sigma))) u)%R.
    - unfold mv. rewrite <- sumn_scal. apply sumn_ext. intros; ring.
    - rewrite pinv_vec by exact Hu. destruct (locate n u Hu) as (i & j & H1 & H2 & ->). rewrite !at_vech by assumption.
      f_equal. unfold tr, mm. apply sumn_ext. intros; ring.
  Qed.

  Lemma jacobian_exact sigma H u : lower_triangular n H -> u < h ->
    derivable_pt_lim (fun t => at_ (vech n (squared n (moved sigma H t))) u) 0
      (mv h (sigma_squared_jacobian n P sigma) (at_ (vech n H)) u).
  Proof.
    intros HL Hu. rewrite jacobian_direction by assumption.
    destruct (locate n u Hu) as (i & j & H1 & H2 & ->). rewrite at_vech by assumption.
    set (g := (mm n H (tr sigma) i j + mm n sigma (tr H) i j)%R). set (s := squared n sigma i j). set (r := squared n H i j).
    assert (E : forall t, at_ (vech n (squared n (moved sigma H t))) (position n i j) = (s + t * g + t * t * r)%R).
    { intro t. rewrite at_vech by assumption. unfold s, g, r, squared, mm, tr, moved.
      rewrite <- sumn_plus, <- !sumn_scal, <- !sumn_plus. apply sumn_ext. intros; ring. }
    intros eps He. assert (B := Rabs_pos r).
    assert (Pd : (0 < eps / (Rabs r + 1))%R) by (apply Rdiv_lt_0_compat; lra).
    exists (mkposreal _ Pd). intros d Hd Hlt. cbn [pos] in Hlt. rewrite !E.
    replace ((s + (0 + d) * g + (0 + d) * (0 + d) * r - (s + 0 * g + 0 * 0 * r)) / d - g)%R with (d * r)%R by (field; exact Hd).
    rewrite Rabs_mult. apply Rle_lt_trans with (Rabs d * (Rabs r + 1))%R; [apply Rmult_le_compat_l; [apply Rabs_pos|lra]|].
    apply Rmult_lt_reg_r with (/ (Rabs r + 1))%R; [apply Rinv_0_lt_compat; lra|].
    rewrite Rmult_assoc, Rinv_r, Rmult_1_r by lra. exact Hlt.
  Qed.
End Pseudo.

(** ** A pseudo-inverse: averages of entries *)
Definition averages (n : nat) : mat := fun u q =>
  ((elimination_matrix n u q + mm (n * n) (elimination_matrix n) (commutation_matrix n) u q) / 2)%R.
Lemma elimination_commute n u a b : a < n -> b < n ->
  mm (n * n) (elimination_matrix n) (commutation_matrix n) u (b * n + a) = elimination_matrix n u (a * n + b).
Proof.
  intros Ha Hb. transitivity (mm (n * n) (commutation_matrix n) (tr (elimination_matrix n)) (b * n + a) u).
  - unfold mm, tr. apply sumn_ext. intros p Hp. rewrite (commutation_sym n p) by (try assumption; nia). ring.
  - apply commute_mm; assumption.
Qed.
Lemma averages_at n i j a b : j <= i -> i < n -> a < n -> b < n -> averages n (position n i j) (b * n + a)
  = (((if (Nat.eqb a i && Nat.eqb b j)%bool then 1 else 0) + (if (Nat.eqb b i && Nat.eqb a j)%bool then 1 else 0)) / 2)%R.
Proof.
  intros H1 H2 Ha Hb. unfold averages. rewrite elimination_commute, !elimination_at by assumption.
  assert (G : forall a b, a < n -> b < n -> (if Nat.leb b a then unit_vector (position n a b) (position n i j) else 0)%R
            = (if (Nat.eqb a i && Nat.eqb b j)%bool then 1 else 0)%R).
  { intros c d Hc Hd. unfold unit_vector. destruct (Nat.leb_spec d c).
    - destruct (Nat.eqb_spec (position n i j) (position n c d)) as [E|E].
      + destruct (position_inj n i j c d H1 H2 ltac:(assumption) Hc E) as [-> ->]. rewrite !Nat.eqb_refl. reflexivity.
      + destruct (Nat.eqb_spec c i), (Nat.eqb_spec d j); cbn [andb]; try reflexivity. subst. contradiction E. reflexivity.
    - destruct (Nat.eqb_spec c i), (Nat.eqb_spec d j); cbn [andb]; try reflexivity. lia. }
  rewrite !G by assumption. reflexivity.
Qed.
Lemma averages_duplication n u v : u < half n -> v < half n ->
  mm (n * n) (averages n) (duplication_matrix n) u v = if Nat.eqb u v then 1%R else 0%R.
Proof.
  intros Hu Hv. destruct (locate n u Hu) as (i & j & H1 & H2 & ->). unfold mm.
  rewrite (sumn_ext _ _ (fun q => ((if Nat.eqb q (j * n + i) then duplication_matrix n q v / 2 else 0)
                                  + (if Nat.eqb q (i * n + j) then duplication_matrix n q v / 2 else 0))%R)).
  - rewrite sumn_plus, !square_delta by lia. rewrite !duplication_at by lia. unfold entry_position, unit_vector.
    rewrite (Nat.max_comm j i), (Nat.min_comm j i), Nat.max_l, Nat.min_r by lia. rewrite (Nat.eqb_sym v). destruct (Nat.eqb _ v); field.
  - intros q Hq. destruct (square_index n q Hq) as (a & b & Ha & Hb & ->). rewrite averages_at by assumption.
    assert (E1 := square_eq n i j a b H2 ltac:(lia) Ha Hb). assert (E2 := square_eq n j i a b ltac:(lia) H2 Ha Hb).
    destruct (Nat.eqb_spec (b * n + a) (j * n + i)) as [X|X], (Nat.eqb_spec (b * n + a) (i * n + j)) as [Y|Y],
      (Nat.eqb_spec a i), (Nat.eqb_spec b j), (Nat.eqb_spec b i), (Nat.eqb_spec a j); cbn [andb]; try field; exfalso; tauto.
Qed.
Lemma duplication_averages n a b c d : a < n -> b < n -> c < n -> d < n ->
  mm (half n) (duplication_matrix n) (averages n) (b * n + a) (d * n + c)
  = (((if (Nat.eqb a c && Nat.eqb b d)%bool then 1 else 0) + (if (Nat.eqb a d && Nat.eqb b c)%bool then 1 else 0)) / 2)%R.
Proof.
  intros Ha Hb Hc Hd. unfold mm.
  rewrite (sumn_ext _ _ (fun u => if Nat.eqb u (entry_position n a b) then averages n u (d * n + c) else 0%R)).
  - rewrite sumn_delta by (apply entry_position_lt; assumption). unfold entry_position. rewrite averages_at by lia.
    destruct (Nat.le_ge_cases a b).
    + rewrite Nat.max_r, Nat.min_l by lia. rewrite (Nat.eqb_sym c b), (Nat.eqb_sym d a), (Nat.eqb_sym d b), (Nat.eqb_sym c a).
      rewrite (andb_comm (Nat.eqb b c)), (andb_comm (Nat.eqb b d)). f_equal. ring.
    + rewrite Nat.max_l, Nat.min_r by lia. rewrite (Nat.eqb_sym c b), (Nat.eqb_sym d a), (Nat.eqb_sym d b), (Nat.eqb_sym c a). reflexivity.
  - intros u Hu. rewrite duplication_at by assumption. unfold unit_vector. destruct (Nat.eqb u (entry_position n a b)); ring.
Qed.
Lemma averages_pseudo n : pseudo_inverse (n * n) (half n) (duplication_matrix n) (averages n).
Proof.
  split; [|split; [|split]].
  - intros q u Hq Hu. rewrite mm_assoc. unfold mm at 1.
    rewrite (sumn_ext _ _ (fun v => if Nat.eqb v u then duplication_matrix n q v else 0%R)); [apply sumn_delta, Hu|].
    intros v Hv. rewrite averages_duplication by assumption. destruct (Nat.eqb v u); ring.
  - intros u q Hu Hq. unfold mm at 1.
    rewrite (sumn_ext _ _ (fun v => if Nat.eqb v u then averages n v q else 0%R)); [apply (sumn_delta _ u (fun v => averages n v q)), Hu|].
    intros v Hv. rewrite averages_duplication by assumption. rewrite (Nat.eqb_sym u v). destruct (Nat.eqb v u); ring.
  - intros p q Hp Hq. destruct (square_index n p Hp) as (a & b & Ha & Hb & ->), (square_index n q Hq) as (c & d & Hc & Hd & ->).
    unfold tr. rewrite !duplication_averages by assumption.
    rewrite (Nat.eqb_sym c a), (Nat.eqb_sym d b), (Nat.eqb_sym c b), (Nat.eqb_sym d a), (andb_comm (Nat.eqb b c)). reflexivity.
  - intros u v Hu Hv. unfold tr. rewrite !averages_duplication by assumption. rewrite Nat.eqb_sym. reflexivity.
Qed.
