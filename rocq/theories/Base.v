(** Shared mathematical vocabulary: finite sums and maxima of real-valued arrays.
    Nothing here models pyblp code; these are the standard meanings of [.sum()], [.max()] and so on
    for arrays represented as a length together with a function from indices. *)
From Coq Require Import Reals Lra Lia List Bool Arith.
Import ListNotations.
Local Open Scope R_scope.

(** [sumn n f] is f 0 + ... + f (n-1). *)
Fixpoint sumn (n : nat) (f : nat -> R) : R :=
  match n with
  | O => 0
  | S m => sumn m f + f m
  end.

(** [maxn n f] is the maximum of f 0, ..., f n (there are n+1 entries). *)
Fixpoint maxn (n : nat) (f : nat -> R) : R :=
  match n with
  | O => f O
  | S m => Rmax (maxn m f) (f (S m))
  end.

(** Indicator of a boolean as a real number. *)
Definition indR (b : bool) : R := if b then 1 else 0.

(** [upd x k t] is x with entry k replaced by t. *)
Definition upd (x : nat -> R) (k : nat) (t : R) : nat -> R := fun j => if Nat.eqb j k then t else x j.

Lemma sumn_ext n f g : (forall k, (k < n)%nat -> f k = g k) -> sumn n f = sumn n g.
Proof.
  induction n as [|n IH]; simpl; intros H; [reflexivity|].
  rewrite IH by (intros k Hk; apply H; lia). rewrite (H n) by lia. reflexivity.
Qed.

Lemma sumn_zero n : sumn n (fun _ => 0) = 0.
Proof. induction n as [|n IH]; simpl; [reflexivity|]. rewrite IH; ring. Qed.

Lemma sumn_plus n f g : sumn n (fun k => f k + g k) = sumn n f + sumn n g.
Proof. induction n as [|n IH]; simpl; [ring|]. rewrite IH; ring. Qed.

Lemma sumn_minus n f g : sumn n (fun k => f k - g k) = sumn n f - sumn n g.
Proof. induction n as [|n IH]; simpl; [ring|]. rewrite IH; ring. Qed.

Lemma sumn_scal n c f : sumn n (fun k => c * f k) = c * sumn n f.
Proof. induction n as [|n IH]; simpl; [ring|]. rewrite IH; ring. Qed.

Lemma sumn_scal_r n c f : sumn n (fun k => f k * c) = sumn n f * c.
Proof. induction n as [|n IH]; simpl; [ring|]. rewrite IH; ring. Qed.

Lemma sumn_opp n f : sumn n (fun k => - f k) = - sumn n f.
Proof. induction n as [|n IH]; simpl; [ring|]. rewrite IH; ring. Qed.

Lemma sumn_const n c : sumn n (fun _ => c) = INR n * c.
Proof. induction n as [|n IH]; [simpl; ring|]. rewrite S_INR; simpl sumn; rewrite IH; ring. Qed.

Lemma sumn_nonneg n f : (forall k, (k < n)%nat -> 0 <= f k) -> 0 <= sumn n f.
Proof.
  induction n as [|n IH]; simpl; intros H; [lra|].
  assert (0 <= f n) by (apply H; lia).
  assert (0 <= sumn n f) by (apply IH; intros; apply H; lia). lra.
Qed.

Lemma sumn_le n f g : (forall k, (k < n)%nat -> f k <= g k) -> sumn n f <= sumn n g.
Proof.
  induction n as [|n IH]; simpl; intros H; [lra|].
  assert (f n <= g n) by (apply H; lia).
  assert (sumn n f <= sumn n g) by (apply IH; intros; apply H; lia). lra.
Qed.

Lemma sumn_lt n f g :
  (forall k, (k < n)%nat -> f k <= g k) ->
  (exists k, (k < n)%nat /\ f k < g k) -> sumn n f < sumn n g.
Proof.
  induction n as [|n IH]; simpl; intros H [k [Hk Hlt]]; [lia|].
  assert (Hn : f n <= g n) by (apply H; lia).
  destruct (Nat.eq_dec k n) as [->|Hne].
  - assert (sumn n f <= sumn n g) by (apply sumn_le; intros; apply H; lia). lra.
  - assert (sumn n f < sumn n g).
    { apply IH; [intros; apply H; lia|]. exists k; split; [lia|assumption]. }
    lra.
Qed.

Lemma sumn_pos n f :
  (forall k, (k < n)%nat -> 0 <= f k) -> (exists k, (k < n)%nat /\ 0 < f k) -> 0 < sumn n f.
Proof.
  intros H1 H2. rewrite <- (sumn_zero n). apply sumn_lt; assumption.
Qed.

Lemma sumn_ge_term n f k :
  (forall k, (k < n)%nat -> 0 <= f k) -> (k < n)%nat -> f k <= sumn n f.
Proof.
  induction n as [|n IH]; simpl; intros H Hk; [lia|].
  assert (0 <= f n) by (apply H; lia).
  assert (0 <= sumn n f) by (apply sumn_nonneg; intros; apply H; lia).
  destruct (Nat.eq_dec k n) as [->|Hne]; [lra|].
  assert (f k <= sumn n f) by (apply IH; [intros; apply H; lia | lia]). lra.
Qed.

Lemma sumn_swap n m (f : nat -> nat -> R) :
  sumn n (fun i => sumn m (fun j => f i j)) = sumn m (fun j => sumn n (fun i => f i j)).
Proof.
  induction n as [|n IH]; simpl.
  - rewrite sumn_zero; reflexivity.
  - rewrite IH, sumn_plus; reflexivity.
Qed.

(** A sum in which only one term can be nonzero. *)
Lemma sumn_single n k f :
  (k < n)%nat -> (forall i, (i < n)%nat -> i <> k -> f i = 0) -> sumn n f = f k.
Proof.
  induction n as [|n IH]; simpl; intros Hk H; [lia|].
  destruct (Nat.eq_dec k n) as [->|Hne].
  - rewrite (sumn_ext n f (fun _ => 0)) by (intros; apply H; lia).
    rewrite sumn_zero; ring.
  - rewrite IH by (try lia; intros; apply H; lia).
    rewrite (H n) by lia. ring.
Qed.

Lemma sumn_delta n k c : (k < n)%nat -> sumn n (fun i => if Nat.eqb i k then c i else 0) = c k.
Proof.
  intros Hk. rewrite (sumn_single n k) by
    (try assumption; intros i _ Hi; apply Nat.eqb_neq in Hi; rewrite Hi; reflexivity).
  rewrite Nat.eqb_refl; reflexivity.
Qed.

(** Splitting off index k: the remaining indices are enumerated by [skip k]. *)
Definition skip (k j : nat) : nat := if Nat.ltb j k then j else S j.

Lemma skip_neq k j : skip k j <> k.
Proof. unfold skip; destruct (Nat.ltb_spec j k); lia. Qed.

Lemma skip_lt k j n : (j < n)%nat -> (k < S n)%nat -> (skip k j < S n)%nat.
Proof. unfold skip; destruct (Nat.ltb_spec j k); lia. Qed.

Lemma skip_surj k i n : (i < S n)%nat -> i <> k -> exists j, (j < n)%nat /\ skip k j = i \/ (k >= S n)%nat.
Proof.
  intros Hi Hne. unfold skip. destruct (Nat.lt_ge_cases i k) as [H|H].
  - exists i. destruct (Nat.lt_ge_cases i n) as [H2|H2].
    + left; split; [lia|]. destruct (Nat.ltb_spec i k); lia.
    + right; lia.
  - exists (pred i). left. split; [lia|]. destruct (Nat.ltb_spec (pred i) k); lia.
Qed.

Lemma sumn_skip n k f :
  (k < S n)%nat -> sumn (S n) f = f k + sumn n (fun j => f (skip k j)).
Proof.
  revert k. induction n as [|n IH]; intros k Hk.
  - assert (k = O) by lia; subst; simpl; ring.
  - destruct (Nat.eq_dec k (S n)) as [->|Hne].
    + change (sumn (S (S n)) f) with (sumn (S n) f + f (S n)).
      rewrite (sumn_ext (S n) (fun j => f (skip (S n) j)) f); [ring|].
      intros j Hj; unfold skip; destruct (Nat.ltb_spec j (S n)); [reflexivity|lia].
    + change (sumn (S (S n)) f) with (sumn (S n) f + f (S n)).
      rewrite (IH k) by lia.
      change (sumn (S n) (fun j => f (skip k j)))
        with (sumn n (fun j => f (skip k j)) + f (skip k n)).
      replace (skip k n) with (S n); [ring|].
      unfold skip; destruct (Nat.ltb_spec n k); [lia|reflexivity].
Qed.

Lemma maxn_ge n f k : (k <= n)%nat -> f k <= maxn n f.
Proof.
  induction n as [|n IH]; simpl; intros Hk.
  - assert (k = O) by lia; subst; lra.
  - destruct (Nat.eq_dec k (S n)) as [->|Hne]; [apply Rmax_r|].
    eapply Rle_trans; [apply IH; lia | apply Rmax_l].
Qed.

Lemma maxn_attained n f : exists k, (k <= n)%nat /\ maxn n f = f k.
Proof.
  induction n as [|n IH]; simpl.
  - exists O; split; [lia|reflexivity].
  - destruct IH as [k [Hk E]]. unfold Rmax. destruct (Rle_dec (maxn n f) (f (S n))).
    + exists (S n); split; [lia|reflexivity].
    + exists k; split; [lia|assumption].
Qed.

Lemma maxn_lub n f c : (forall k, (k <= n)%nat -> f k <= c) -> maxn n f <= c.
Proof. intros H. destruct (maxn_attained n f) as [k [Hk ->]]. apply H; assumption. Qed.

Lemma indR_nonneg b : 0 <= indR b.
Proof. destruct b; simpl; lra. Qed.

Lemma Rsum_sq_zero n f : sumn n (fun k => f k * f k) = 0 -> forall k, (k < n)%nat -> f k = 0.
Proof.
  intros H k Hk.
  assert (Hle : f k * f k <= 0).
  { rewrite <- H. apply (sumn_ge_term n (fun k => f k * f k)); [|assumption].
    intros; apply Rle_0_sqr. }
  assert (0 <= f k * f k) by apply Rle_0_sqr.
  apply Rsqr_0_uniq. unfold Rsqr. lra.
Qed.
