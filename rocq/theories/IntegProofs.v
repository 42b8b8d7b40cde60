(** Proofs about integration nodes and weights. *)
From Coq Require Import Reals Lra Lia ZArith List Bool Arith Permutation Sorted FunctionalExtensionality.
From Verif Require Import Base IntegModel IntegSpec.
Import ListNotations.
Local Open Scope R_scope.

(* ---------- Sums of lists ---------- *)

Lemma suml_app {A} (f : A -> R) l m : suml f (l ++ m) = suml f l + suml f m.
Proof. induction l as [|a l IH]; cbn; [ring|]. rewrite IH. ring. Qed.
Lemma suml_ext {A} (f g : A -> R) l : (forall a, In a l -> f a = g a) -> suml f l = suml g l.
Proof.
  induction l as [|a l IH]; cbn; intros H; [reflexivity|].
  rewrite (H a) by tauto. rewrite IH; [reflexivity|]. intros b Hb. apply H. tauto.
Qed.
Lemma suml_map {A B} (h : A -> B) f l : suml f (map h l) = suml (fun a => f (h a)) l.
Proof. induction l as [|a l IH]; cbn; [reflexivity|]. rewrite IH. reflexivity. Qed.
Lemma suml_scal {A} c (f : A -> R) l : suml (fun a => c * f a) l = c * suml f l.
Proof. induction l as [|a l IH]; cbn; [ring|]. rewrite IH. ring. Qed.
Lemma suml_scal_r {A} c (f : A -> R) l : suml (fun a => f a * c) l = suml f l * c.
Proof. induction l as [|a l IH]; cbn; [ring|]. rewrite IH. ring. Qed.
Lemma suml_plus {A} (f g : A -> R) l : suml (fun a => f a + g a) l = suml f l + suml g l.
Proof. induction l as [|a l IH]; cbn; [ring|]. rewrite IH. ring. Qed.
Lemma suml_flat_map {A B} (h : A -> list B) f l : suml f (flat_map h l) = suml (fun a => suml f (h a)) l.
Proof. induction l as [|a l IH]; cbn; [reflexivity|]. rewrite suml_app, IH. reflexivity. Qed.
Lemma suml_concat {B} (f : B -> R) l : suml f (concat l) = suml (fun a => suml f a) l.
Proof. induction l as [|a l IH]; cbn; [reflexivity|]. rewrite suml_app, IH. reflexivity. Qed.
Lemma suml_perm {A} (f : A -> R) l m : Permutation l m -> suml f l = suml f m.
Proof. induction 1; cbn; lra. Qed.
Lemma suml_rev {A} (f : A -> R) l : suml f (rev l) = suml f l.
Proof. apply suml_perm. apply Permutation_sym, Permutation_rev. Qed.
Lemma suml_const {A} c (l : list A) : suml (fun _ => c) l = INR (length l) * c.
Proof. induction l as [|a l IH]; [cbn; ring|]. cbn [suml length]. rewrite IH, S_INR. ring. Qed.
Lemma suml_zero {A} (f : A -> R) l : (forall a, In a l -> f a = 0) -> suml f l = 0.
Proof.
  induction l as [|a l IH]; cbn; intros H; [reflexivity|].
  rewrite (H a) by tauto. rewrite IH; [ring|]. intros b Hb. apply H. tauto.
Qed.
Lemma weights_sum_suml l : weights_sum l = suml (fun w => w) l.
Proof. induction l as [|a l IH]; cbn; [reflexivity|]. unfold weights_sum in IH. rewrite IH. reflexivity. Qed.

Lemma combine_map_map {A B C D} (f : A -> C) (h : B -> D) a b :
  combine (map f a) (map h b) = map (fun p => (f (fst p), h (snd p))) (combine a b).
Proof. revert b. induction a as [|x a IH]; intros [|y b]; cbn; [reflexivity..|]. rewrite IH. reflexivity. Qed.
Lemma combine_map_same {A B C} (f : A -> B) (h : A -> C) l : combine (map f l) (map h l) = map (fun a => (f a, h a)) l.
Proof. induction l as [|a l IH]; cbn; [reflexivity|]. rewrite IH. reflexivity. Qed.
Lemma combine_app {A B} (a a' : list A) (b b' : list B) : length a = length b -> combine (a ++ a') (b ++ b') = combine a b ++ combine a' b'.
Proof. revert b. induction a as [|x a IH]; intros [|y b] H; cbn in *; try discriminate; [reflexivity|]. rewrite IH by lia. reflexivity. Qed.
Lemma combine_rev {A B} (a : list A) (b : list B) : length a = length b -> combine (rev a) (rev b) = rev (combine a b).
Proof.
  revert b. induction a as [|x a IH]; intros [|y b] H; cbn in *; try discriminate; [reflexivity|].
  rewrite combine_app by (rewrite !rev_length; lia). rewrite IH by lia. reflexivity.
Qed.
Lemma combine_skipn {A B} n (a : list A) (b : list B) : combine (skipn n a) (skipn n b) = skipn n (combine a b).
Proof.
  revert a b. induction n as [|n IH]; intros [|x a] [|y b]; cbn; try reflexivity; [|apply IH].
  destruct (skipn n a); reflexivity.
Qed.

(* ---------- Product rules ---------- *)

(** All nodes of a product with the products of their weights. *)
Fixpoint tensor (rules : list rule) : list row :=
  match rules with
  | [] => [([], 1)]
  | r :: rules => flat_map (fun p => map (fun q => (fst p :: fst q, snd p * snd q)) (tensor rules)) r
  end.
Lemma tensor_integral rules F : suml (fun r => snd r * F (fst r)) (tensor rules) = iterated rules F.
Proof.
  revert F. induction rules as [|r rules IH]; intros F; cbn; [ring|].
  rewrite suml_flat_map. unfold univariate. apply suml_ext. intros p _. rewrite suml_map. cbn [fst snd].
  rewrite <- IH, <- suml_scal. apply suml_ext. intros q _. ring.
Qed.
Lemma tensor_cartesian rules : cartesian (map (map fst) rules) = map fst (tensor rules).
Proof.
  induction rules as [|r rules IH]; cbn; [reflexivity|]. rewrite IH. clear IH.
  induction r as [|p r IHr]; cbn; [reflexivity|]. rewrite IHr, !map_app, !map_map. reflexivity.
Qed.
Lemma kron_assoc a b c : kron (kron a b) c = kron a (kron b c).
Proof.
  unfold kron. induction a as [|x a IH]; cbn; [reflexivity|]. rewrite flat_map_app, IH. f_equal.
  clear IH. induction b as [|y b IHb]; cbn; [reflexivity|]. rewrite IHb, map_app, map_map. f_equal.
  apply map_ext. intros z. ring.
Qed.
Lemma fold_kron l a : fold_left kron l a = kron a (fold_right kron [1] l).
Proof.
  revert a. induction l as [|b l IH]; intros a; cbn [fold_left fold_right].
  - unfold kron. induction a as [|x a IHa]; cbn; [reflexivity|]. cbn in IHa. rewrite <- IHa. rewrite Rmult_1_r. reflexivity.
  - rewrite IH, kron_assoc. reflexivity.
Qed.
Lemma tensor_kron rules : fold_right kron [1] (map (map snd) rules) = map snd (tensor rules).
Proof.
  induction rules as [|r rules IH]; cbn; [reflexivity|]. rewrite IH. clear IH. unfold kron.
  induction r as [|p r IHr]; cbn; [reflexivity|]. rewrite IHr, !map_app, !map_map. reflexivity.
Qed.
Lemma reduce_tensor rules : rules <> [] -> reduce_kron (map (map snd) rules) = map snd (tensor rules).
Proof.
  intros H. destruct rules as [|r rules]; [tauto|]. cbn [map reduce_kron]. rewrite fold_kron, tensor_kron.
  cbn [tensor]. unfold kron. induction r as [|p r IHr]; cbn; [reflexivity|].
  rewrite map_app, !map_map. f_equal. apply IHr. discriminate.
Qed.
Lemma combine_fst_snd {A B} (l : list (A * B)) : combine (map fst l) (map snd l) = l.
Proof. induction l as [|[a b] l IH]; cbn; [reflexivity|]. rewrite IH. reflexivity. Qed.
Lemma map_fst_combine {A B} (a : list A) (b : list B) : length a = length b -> map fst (combine a b) = a.
Proof. revert b. induction a as [|x a IH]; intros [|y b] H; cbn in *; try discriminate; [reflexivity|]. rewrite IH by lia. reflexivity. Qed.
Lemma map_snd_combine {A B} (a : list A) (b : list B) : length a = length b -> map snd (combine a b) = b.
Proof. revert b. induction a as [|x a IH]; intros [|y b] H; cbn in *; try discriminate; [reflexivity|]. rewrite IH by lia. reflexivity. Qed.
(** Nodes and weights of a product, zipped. *)
Lemma product_rows (x w : list (list R)) : Forall2 (fun x w => length x = length w) x w -> x <> [] ->
  combine (cartesian x) (reduce_kron w) = tensor (map (fun p => combine (fst p) (snd p)) (combine x w)) /\
  length (cartesian x) = length (reduce_kron w).
Proof.
  intros H N. set (rules := map (fun p => combine (fst p) (snd p)) (combine x w)).
  assert (X : map (map fst) rules = x).
  { unfold rules. clear N. induction H as [|a b x w H _ IH]; cbn; [reflexivity|]. cbn in IH. rewrite IH, map_fst_combine by exact H. reflexivity. }
  assert (W : map (map snd) rules = w).
  { unfold rules. clear N X. induction H as [|a b x w H _ IH]; cbn; [reflexivity|]. cbn in IH. rewrite IH, map_snd_combine by exact H. reflexivity. }
  assert (N' : rules <> []). { intros E. rewrite E in X. cbn in X. congruence. }
  rewrite <- X, <- W. rewrite tensor_cartesian, reduce_tensor by exact N'. rewrite !map_length. split; [|reflexivity].
  apply combine_fst_snd.
Qed.

Lemma iterated_ext rules F G : (forall x, F x = G x) -> iterated rules F = iterated rules G.
Proof.
  revert F G. induction rules as [|r rules IH]; intros F G H; cbn; [apply H|].
  unfold univariate. apply suml_ext. intros p _. f_equal. apply IH. intros y. apply H.
Qed.
Lemma iterated_scal rules c F : iterated rules (fun x => c * F x) = c * iterated rules F.
Proof.
  revert F. induction rules as [|r rules IH]; intros F; cbn; [reflexivity|].
  unfold univariate. rewrite <- suml_scal. apply suml_ext. intros p _. rewrite IH. ring.
Qed.
Lemma iterated_product r fs : iterated (repeat r (length fs)) (product_of fs) = fold_right Rmult 1 (map (univariate r) fs).
Proof.
  induction fs as [|f fs IH]; cbn; [reflexivity|]. rewrite <- IH.
  unfold univariate at 1 2. rewrite <- suml_scal_r. apply suml_ext. intros p _. rewrite iterated_scal. ring.
Qed.
Lemma mirrored_length drop x w : length x = length w -> length (mirrored_nodes drop x) = length (mirrored_weights drop w).
Proof. intros H. unfold mirrored_nodes, mirrored_weights. rewrite !app_length, map_length, !rev_length, !skipn_length. lia. Qed.
Lemma forall2_repeat {A B} (P : A -> B -> Prop) a b n : P a b -> Forall2 P (repeat a n) (repeat b n).
Proof. intros H. induction n; cbn; constructor; assumption. Qed.
Lemma map_combine_repeat {A B C} (f : A * B -> C) a b n : map f (combine (repeat a n) (repeat b n)) = repeat (f (a, b)) n.
Proof. induction n as [|n IH]; cbn; [reflexivity|]. rewrite IH. reflexivity. Qed.
(** The rule that is mirrored has the same integrals as the one on the whole line. *)
Lemma mirrored_rule drop x w f : length x = length w ->
  (drop = 0%nat -> ~ In 0 x) -> (drop = 1%nat -> exists y, x = 0 :: y /\ ~ In 0 y) -> (drop <= 1)%nat ->
  univariate (combine (mirrored_nodes drop x) (mirrored_weights drop w)) f = univariate (whole_line x w) f.
Proof.
  intros L H0 H1 Hd. unfold univariate, mirrored_nodes, mirrored_weights, whole_line.
  rewrite combine_app by (rewrite map_length, !rev_length; exact L).
  rewrite suml_app. rewrite suml_flat_map.
  transitivity (suml (fun p => snd p * f (- fst p)) (combine x w) + suml (fun p => snd p * f (fst p)) (skipn drop (combine x w))).
  { f_equal.
    - rewrite <- (suml_rev (fun p => snd p * f (- fst p))). rewrite map_rev.
      replace (combine (rev (map Ropp x)) (rev w)) with (rev (combine (map Ropp x) w)) by (symmetry; apply combine_rev; rewrite map_length; exact L).
      rewrite !suml_rev. replace (combine (map Ropp x) w) with (combine (map Ropp x) (map (fun v : R => v) w)) by (rewrite map_id; reflexivity).
      rewrite combine_map_map, suml_map. reflexivity.
    - rewrite combine_skipn. reflexivity. }
  assert (G : forall l : rule, (forall p, In p l -> fst p <> 0) ->
    suml (fun p => suml (fun p => snd p * f (fst p)) (if Req_EM_T (fst p) 0 then [p] else [(- fst p, snd p); p])) l =
    suml (fun p => snd p * f (- fst p)) l + suml (fun p => snd p * f (fst p)) l).
  { intros l Hl. rewrite <- suml_plus. apply suml_ext. intros p Hp. destruct (Req_EM_T (fst p) 0) as [E|E].
    - destruct (Hl p Hp E).
    - cbn [suml fst snd]. ring. }
  destruct drop as [|[|drop]]; [| |lia].
  - cbn [skipn]. symmetry. apply G. intros p Hp E. apply (H0 eq_refl). rewrite <- E. destruct p as [a b]. apply in_combine_l in Hp. exact Hp.
  - destruct (H1 eq_refl) as [y [-> Hy]]. destruct w as [|v w]; [discriminate|]. cbn [combine skipn suml fst snd].
    rewrite (G (combine y w)).
    + destruct (Req_EM_T 0 0) as [_|E]; [|lra]. cbn [suml fst snd]. rewrite Ropp_0. ring.
    + intros p Hp E. apply Hy. rewrite <- E. destruct p as [a b]. apply in_combine_l in Hp. exact Hp.
Qed.

(* ---------- Sequences with a given sum ---------- *)

Local Open Scope nat_scope.
Lemma firstn_prefix {A} (p q : list A) : firstn (length p) (p ++ q) = p.
Proof. rewrite firstn_app, Nat.sub_diag, firstn_O, firstn_all, app_nil_r. reflexivity. Qed.
Lemma firstn_prefix1 {A} (p : list A) a q : firstn (S (length p)) (p ++ a :: q) = p ++ [a].
Proof.
  replace (p ++ a :: q) with ((p ++ [a]) ++ q) by (rewrite <- app_assoc; reflexivity).
  replace (S (length p)) with (length (p ++ [a])) by (rewrite app_length; cbn; lia). apply firstn_prefix.
Qed.
Lemma skipn_prefix1 {A} (p : list A) a q : skipn (S (length p)) (p ++ a :: q) = q.
Proof.
  replace (p ++ a :: q) with ((p ++ [a]) ++ q) by (rewrite <- app_assoc; reflexivity).
  replace (S (length p)) with (length (p ++ [a])) by (rewrite app_length; cbn; lia).
  rewrite skipn_app, Nat.sub_diag, skipn_all. reflexivity.
Qed.
Lemma set_nth_prefix p v a q : set_nth (length p) v (p ++ a :: q) = p ++ v :: q.
Proof. unfold set_nth. rewrite firstn_prefix, skipn_prefix1. reflexivity. Qed.
Lemma set_nth_prefix1 p v a b q : set_nth (S (length p)) v (p ++ a :: b :: q) = p ++ a :: v :: q.
Proof.
  assert (E := set_nth_prefix (p ++ [a]) v b q). rewrite app_length in E. cbn in E.
  replace (length p + 1) with (S (length p)) in E by lia. rewrite <- !app_assoc in E. exact E.
Qed.
Lemma nth_prefix {A} (p : list A) a q d : nth (length p) (p ++ a :: q) d = a.
Proof. rewrite app_nth2 by lia. rewrite Nat.sub_diag. reflexivity. Qed.
Lemma total_app p q : total (p ++ q) = total p + total q.
Proof. unfold total. induction p as [|a p IH]; cbn; lia. Qed.
Lemma total_zeros n : total (repeat 0 n) = 0.
Proof. induction n; cbn; [reflexivity|]. exact IHn. Qed.
Lemma repeat_snoc {A} (a : A) n : repeat a n ++ [a] = a :: repeat a n.
Proof. induction n as [|n IH]; cbn; [reflexivity|]. rewrite IH. reflexivity. Qed.

(** The part of the body after the position is known. *)
Lemma advance p a b q v size s : length p + S (S (length q)) = size -> s - (total p + (a - 1)) = v ->
  (let sequence := set_nth (length p) (a - 1) (p ++ a :: b :: q) in
   let sequence := set_nth (S (length p)) (s - total (firstn (S (length p)) sequence)) sequence in
   if S (length p) <? size - 1 then firstn (S (S (length p))) sequence ++ repeat 0 (size - S (S (length p))) else sequence) =
  p ++ (a - 1) :: v :: repeat 0 (length q).
Proof.
  intros L V. cbv zeta. rewrite set_nth_prefix. rewrite firstn_prefix1, total_app.
  replace (total [a - 1]) with (a - 1) by (cbn; lia). rewrite V. rewrite set_nth_prefix1.
  destruct (Nat.ltb_spec (S (length p)) (size - 1)) as [H|H].
  - assert (E := firstn_prefix1 (p ++ [a - 1]) v q). rewrite app_length in E. cbn [length] in E.
    replace (length p + 1) with (S (length p)) in E by lia. rewrite <- !app_assoc in E. cbn [app] in E.
    change (S (S (length p))) with (S (S (length p))). rewrite E. rewrite <- app_assoc. cbn [app].
    replace (size - S (S (length p))) with (length q) by lia. reflexivity.
  - destruct q; [reflexivity|]. cbn in L. lia.
Qed.
Lemma next_first size s p t n : size = length p + n + 2 -> s = total p + t -> 0 < t ->
  next_sequence size s (p ++ t :: repeat 0 (S n)) (length p) = (p ++ (t - 1) :: 1 :: repeat 0 n, S (length p)).
Proof.
  intros L E T. unfold next_sequence. destruct (Nat.eqb_spec (length p) (size - 1)) as [H|_]; [lia|].
  rewrite nth_prefix. f_equal. cbn [repeat].
  assert (A := advance p t 0 (repeat 0 n) 1 size s). rewrite repeat_length in A. apply A; lia.
Qed.
Lemma go_back_zeros p a n q : 0 < a -> go_back (p ++ a :: repeat 0 n ++ q) (length p + n + 1) = length p.
Proof.
  intros A. induction n as [|n IH] in q |- *.
  - replace (length p + 0 + 1) with (S (length p)) by lia. cbn [go_back repeat app]. rewrite nth_prefix.
    destruct (Nat.eqb_spec a 0) as [E|_]; [lia|reflexivity].
  - replace (length p + S n + 1) with (S (length p + n + 1)) by lia. cbn [go_back].
    assert (Z : nth (length p + n + 1) (p ++ a :: repeat 0 (S n) ++ q) 0 = 0).
    { rewrite app_nth2 by lia. replace (length p + n + 1 - length p) with (S n) by lia. cbn [nth].
      rewrite app_nth1 by (rewrite repeat_length; lia). apply nth_repeat. }
    rewrite Z. cbn [Nat.eqb negb].
    replace (repeat 0 (S n) ++ q) with (repeat 0 n ++ (0 :: q)); [apply IH|].
    change (0 :: q) with ([0] ++ q). rewrite app_assoc. rewrite repeat_snoc. reflexivity.
Qed.
Lemma next_block size s p a n j : size = length p + n + 2 -> s = total p + a + j -> 0 < a ->
  next_sequence size s (p ++ a :: repeat 0 n ++ [j]) (size - 1) = (p ++ (a - 1) :: S j :: repeat 0 n, S (length p)).
Proof.
  intros L E A. unfold next_sequence. rewrite Nat.eqb_refl.
  replace (go_back (p ++ a :: repeat 0 n ++ [j]) (size - 1)) with (length p).
  2: { symmetry. replace (size - 1) with (length p + n + 1) by lia. apply go_back_zeros. exact A. }
  rewrite nth_prefix. f_equal.
  assert (Q : exists b q, repeat 0 n ++ [j] = b :: q /\ length q = n).
  { destruct n as [|n]; cbn; eexists; eexists; (split; [reflexivity|]); [reflexivity|]. rewrite app_length, repeat_length. cbn. lia. }
  destruct Q as [b [q [Q1 Q2]]]. rewrite Q1. rewrite <- Q2. apply advance; lia.
Qed.

(** All sequences of n + 1 natural numbers with sum t, in the order of the loop. *)
Fixpoint compositions (n t : nat) : list (list nat) :=
  match n with
  | 0 => [[t]]
  | S n => flat_map (fun j => map (cons (t - j)) (compositions n j)) (seq 0 (S t))
  end.
Lemma compositions_iff n t l : In l (compositions n t) <-> length l = S n /\ total l = t.
Proof.
  revert t l. induction n as [|n IH]; intros t l; cbn [compositions].
  - split.
    + intros [<-|[]]. cbn. lia.
    + intros [L T]. destruct l as [|a [|b l]]; cbn in *; try discriminate. left. f_equal. lia.
  - rewrite in_flat_map. split.
    + intros [j [Hj H]]. apply in_seq in Hj. apply in_map_iff in H. destruct H as [m [<- Hm]]. apply IH in Hm.
      destruct Hm as [L T]. cbn. fold (total m). lia.
    + intros [L T]. destruct l as [|a m]; [discriminate|]. cbn in L, T. fold (total m) in T. exists (total m). split; [apply in_seq; lia|].
      apply in_map_iff. exists m. split; [f_equal; lia|]. apply IH. lia.
Qed.
Lemma compositions_nodup n t : NoDup (compositions n t).
Proof.
  revert t. induction n as [|n IH]; intros t; cbn [compositions]; [repeat constructor; cbn; tauto|].
  assert (G : forall l : list nat, NoDup l -> (forall j, In j l -> j <= t) ->
    NoDup (flat_map (fun j => map (cons (t - j)) (compositions n j)) l)).
  { intros l. induction l as [|j l IHl]; intros N B; cbn [flat_map]; [constructor|]. inversion N as [|? ? N1 N2]; subst.
    assert (D : NoDup (map (cons (t - j)) (compositions n j))).
    { apply FinFun.Injective_map_NoDup; [|apply IH]. intros x y H. congruence. }
    assert (F : NoDup (flat_map (fun j => map (cons (t - j)) (compositions n j)) l)) by (apply IHl; [exact N2|]; intros k Hk; apply B; right; exact Hk).
    assert (S : forall x, In x (map (cons (t - j)) (compositions n j)) -> ~ In x (flat_map (fun j => map (cons (t - j)) (compositions n j)) l)).
    { intros x Hx Hy. apply in_map_iff in Hx. destruct Hx as [m [<- _]]. apply in_flat_map in Hy. destruct Hy as [k [Hk Hm]].
      apply in_map_iff in Hm. destruct Hm as [m' [Em _]]. assert (t - k = t - j) by congruence.
      assert (k <= t) by (apply B; right; exact Hk). assert (j <= t) by (apply B; left; reflexivity). assert (k = j) by lia. subst k. tauto. }
    clear - D F S. induction (map (cons (t - j)) (compositions n j)) as [|x r IHr]; cbn; [exact F|].
    inversion D as [|? ? D1 D2]; subst. constructor.
    - rewrite in_app_iff. intros [H|H]; [tauto|]. apply (S x); [left; reflexivity|exact H].
    - apply IHr; [exact D2|]. intros y Hy. apply S. right. exact Hy. }
  apply G; [apply seq_NoDup|]. intros j Hj. apply in_seq in Hj. lia.
Qed.

(** The loop emits a list of sequences between two states. *)
Definition emits (size s : nat) (from : list nat) (forward : nat) (l : list (list nat)) (to : list nat) (forward' : nat) : Prop :=
  forall fuel, sequences_loop (length l + fuel) size s from forward = option_map (app l) (sequences_loop fuel size s to forward').
Lemma emits_refl size s x f : emits size s x f [] x f.
Proof. intros fuel. cbn [length plus]. destruct (sequences_loop fuel size s x f); reflexivity. Qed.
Lemma emits_trans size s x f l y f' m z f'' : emits size s x f l y f' -> emits size s y f' m z f'' -> emits size s x f (l ++ m) z f''.
Proof.
  intros H1 H2 fuel. rewrite app_length, <- Nat.add_assoc, H1, H2.
  destruct (sequences_loop fuel size s z f''); cbn; [|reflexivity]. rewrite app_assoc. reflexivity.
Qed.
Lemma emits_step size s x f y f' : nth (size - 1) x 0 < s -> next_sequence size s x f = (y, f') -> emits size s x f [x] y f'.
Proof.
  intros H E fuel. cbn [length plus sequences_loop]. destruct (Nat.ltb_spec (nth (size - 1) x 0) s) as [_|H']; [|lia].
  rewrite E. destruct (sequences_loop fuel size s y f'); reflexivity.
Qed.
Lemma emits_block n : forall size s p t, size = length p + n + 1 -> s = total p + t -> 0 < t ->
  exists l, compositions n t = l ++ [repeat 0 n ++ [t]] /\
    emits size s (p ++ t :: repeat 0 n) (length p) (map (app p) l) (p ++ repeat 0 n ++ [t]) (size - 1).
Proof.
  induction n as [|n IH]; intros size s p t L E T.
  - exists []. split; [reflexivity|]. cbn. replace (size - 1) with (length p) by lia. apply emits_refl.
  - (* blocks for remaining sums j, ..., t *)
    assert (B : forall k j, t = k + j -> 0 < j -> exists l,
      flat_map (fun j => map (cons (t - j)) (compositions n j)) (seq j (S k)) = l ++ [repeat 0 (S n) ++ [t]] /\
      emits size s (p ++ (t - j) :: j :: repeat 0 n) (S (length p)) (map (app p) l) (p ++ repeat 0 (S n) ++ [t]) (size - 1)).
    { induction k as [|k IHk]; intros j Ej Hj.
      - destruct (IH size s (p ++ [0]) j) as [l [C M]]; [rewrite app_length; cbn; lia|rewrite total_app; cbn; lia|exact Hj|].
        assert (j = t) by lia. subst j. exists (map (cons 0) l). split.
        + cbn [seq flat_map]. rewrite app_nil_r, Nat.sub_diag, C, map_app. reflexivity.
        + rewrite Nat.sub_diag. rewrite app_length in M. cbn in M. replace (length p + 1) with (S (length p)) in M by lia.
          rewrite <- !app_assoc in M. cbn [app] in M. cbn [repeat app].
          rewrite map_map. erewrite map_ext; [exact M|]. intros x. rewrite <- app_assoc. reflexivity.
      - destruct (IH size s (p ++ [t - j]) j) as [l [C M]]; [rewrite app_length; cbn; lia|rewrite total_app; cbn; lia|exact Hj|].
        destruct (IHk (S j)) as [l' [C' M']]; [lia|lia|].
        exists (map (cons (t - j)) (l ++ [repeat 0 n ++ [j]]) ++ l'). split.
        + change (seq j (S (S k))) with (j :: seq (S j) (S k)). cbn [flat_map]. rewrite C, C'. rewrite app_assoc. reflexivity.
        + rewrite map_app. eapply emits_trans; [|exact M'].
          rewrite (map_app (cons (t - j))), map_app. eapply emits_trans.
          * rewrite app_length in M. cbn in M. replace (length p + 1) with (S (length p)) in M by lia.
            rewrite <- !app_assoc in M. cbn [app] in M.
            rewrite map_map. erewrite map_ext; [exact M|]. intros x. rewrite <- app_assoc. reflexivity.
          * cbn [map]. apply emits_step.
            { replace (size - 1) with (length (p ++ (t - j) :: repeat 0 n)) by (rewrite app_length; cbn; rewrite repeat_length; lia).
              replace (p ++ t - j :: repeat 0 n ++ [j]) with ((p ++ (t - j) :: repeat 0 n) ++ j :: []) by (rewrite <- app_assoc; reflexivity).
              rewrite nth_prefix. lia. }
            { rewrite (next_block size s p (t - j) n j) by lia. replace (t - j - 1) with (t - S j) by lia. reflexivity. } }
    destruct (B (t - 1) 1) as [l [C M]]; [lia|lia|].
    exists ((t :: repeat 0 (S n)) :: l). split.
    + cbn [compositions]. replace (S t) with (S (S (t - 1))) by lia.
      change (seq 0 (S (S (t - 1)))) with (0 :: seq 1 (S (t - 1))).
      rewrite <- app_comm_cons, <- C. replace (S (t - 1)) with t by lia. cbn [flat_map].
      rewrite Nat.sub_0_r. replace (compositions n 0) with [repeat 0 (S n)]; [reflexivity|].
      clear. induction n as [|n IH]; [reflexivity|]. cbn [compositions seq flat_map]. rewrite <- IH. reflexivity.
    + cbn [map]. change ((p ++ t :: repeat 0 (S n)) :: map (app p) l) with ([p ++ t :: repeat 0 (S n)] ++ map (app p) l).
      eapply emits_trans; [|exact M]. apply emits_step.
      * rewrite app_nth2 by lia. replace (size - 1 - length p) with (S n) by lia. cbn [nth].
        replace (nth n (repeat 0 (S n)) 0) with 0 by (symmetry; apply nth_repeat). lia.
      * apply next_first; lia.
Qed.
Lemma sequences_all fuel n s : length (compositions n s) <= fuel ->
  sequences_loop fuel (S n) s (s :: repeat 0 n) 0 = Some (compositions n s).
Proof.
  intros F. destruct (Nat.eq_dec s 0) as [->|P].
  - replace (compositions n 0) with [0 :: repeat 0 n] in *.
    2: { clear. induction n as [|n IH]; [reflexivity|]. cbn [compositions seq flat_map]. rewrite <- IH. reflexivity. }
    destruct fuel as [|fuel]; [cbn in F; lia|]. cbn [sequences_loop].
    destruct (Nat.ltb_spec (nth (S n - 1) (0 :: repeat 0 n) 0) 0); [lia|reflexivity].
  - destruct (emits_block n (S n) s [] s) as [l [C M]]; [cbn; lia|cbn; lia|lia|]. cbn [length] in M. change ([] ++ s :: repeat 0 n) with (s :: repeat 0 n) in M. change (map (app []) l) with (map (fun x : list nat => x) l) in M. rewrite map_id in M.
    rewrite C in *. rewrite app_length in F. cbn in F.
    replace fuel with (length l + S (fuel - length l - 1)) by lia. rewrite (M (S (fuel - length l - 1))). cbn [sequences_loop app].
    replace (S n - 1) with (length (repeat 0 n)) by (rewrite repeat_length; lia). rewrite nth_prefix.
    rewrite Nat.ltb_irrefl. reflexivity.
Qed.
Lemma same_size_compositions fuel size summation : 1 <= size -> length (compositions (size - 1) (summation - size)) <= fuel ->
  same_size_sequences fuel size summation = Some (map (map S) (compositions (size - 1) (summation - size))).
Proof.
  intros H F. unfold same_size_sequences. assert (E := sequences_all fuel (size - 1) (summation - size) F).
  replace (S (size - 1)) with size in E by lia. rewrite E. reflexivity.
Qed.
Lemma loop_fuel fuel fuel' size s x f l : sequences_loop fuel size s x f = Some l -> fuel <= fuel' -> sequences_loop fuel' size s x f = Some l.
Proof.
  revert fuel' x f l. induction fuel as [|fuel IH]; intros fuel' x f l H F; [discriminate|]. destruct fuel' as [|fuel']; [lia|].
  cbn [sequences_loop] in *. destruct (_ <? _); [|exact H]. destruct (next_sequence size s x f) as [y f'].
  destruct (sequences_loop fuel size s y f') as [m|] eqn:E; [|discriminate]. rewrite (IH fuel' y f' m E) by lia. exact H.
Qed.
Lemma same_size_some fuel size summation l : 1 <= size -> same_size_sequences fuel size summation = Some l ->
  l = map (map S) (compositions (size - 1) (summation - size)).
Proof.
  intros H E. set (m := Nat.max fuel (length (compositions (size - 1) (summation - size)))).
  assert (A := same_size_compositions m size summation H (Nat.le_max_r _ _)).
  unfold same_size_sequences in E, A. destruct (sequences_loop fuel _ _ _ _) as [k|] eqn:K; [|discriminate].
  rewrite (loop_fuel _ m _ _ _ _ _ K (Nat.le_max_l _ _)) in A. cbn [option_map] in *. congruence.
Qed.

(* ---------- Sparse grids ---------- *)

Local Open Scope R_scope.
Definition lin (F : list R -> R) (rows : list row) : R := suml (fun r => snd r * F (fst r)) rows.

Lemma lex_insert_perm r l : Permutation (lex_insert r l) (r :: l).
Proof.
  induction l as [|s l IH]; cbn; [reflexivity|]. destruct (lex_le (fst r) (fst s)); [reflexivity|].
  rewrite IH. apply perm_swap.
Qed.
Lemma lexsort_perm l : Permutation (lexsort l) l.
Proof. induction l as [|r l IH]; cbn; [reflexivity|]. rewrite lex_insert_perm. constructor. exact IH. Qed.
Lemma lin_sort F l : lin F (lexsort l) = lin F l.
Proof. apply suml_perm, lexsort_perm. Qed.
Lemma lin_merge_from F x w l : lin F (merge_from x w l) = w * F x + lin F l.
Proof.
  revert x w. induction l as [|[y v] l IH]; intros x w; cbn [merge_from]; [reflexivity|].
  destruct (list_eq_dec Req_EM_T y x) as [->|_].
  - rewrite IH. unfold lin. cbn [suml fst snd]. ring.
  - unfold lin in *. cbn [suml fst snd]. rewrite IH. reflexivity.
Qed.
Lemma lin_merge F l : lin F (merge l) = lin F l.
Proof. destruct l as [|[x w] l]; [reflexivity|]. cbn [merge]. rewrite lin_merge_from. reflexivity. Qed.

Definition equal_lengths (t : quadrature_tables) : Prop :=
  forall level x w, get_quadrature_data t level = Some (x, w) -> length x = length w.
Lemma all_some_nth {A B} (f : A -> option B) l m : all_some (map f l) = Some m -> Forall2 (fun a b => f a = Some b) l m.
Proof.
  revert m. induction l as [|a l IH]; cbn; intros m H; [injection H as <-; constructor|].
  destruct (f a) as [b|] eqn:E; [|discriminate]. destruct (all_some (map f l)) as [m'|]; [|discriminate]. injection H as <-.
  constructor; [exact E|]. apply IH. reflexivity.
Qed.
Lemma component_rows t c levels rows : equal_lengths t -> levels <> [] -> component t c levels = Some rows ->
  rows = map (fun r => (fst r, c * snd r)) (tensor (map (half t) levels)).
Proof.
  intros E N H. unfold component in H. destruct (all_some _) as [d|] eqn:D; [|discriminate]. cbn in H. injection H as <-.
  apply all_some_nth in D.
  assert (L : Forall2 (fun x w : list R => length x = length w) (map fst d) (map snd d)).
  { clear N. induction D as [|level [x w] levels d Hd _ IH]; cbn; constructor; [|exact IH]. exact (E level x w Hd). }
  assert (M : map fst d <> []). { inversion D; subst; [tauto|discriminate]. }
  destruct (product_rows _ _ L M) as [P _].
  assert (R : map (fun p => combine (fst p) (snd p)) (combine (map fst d) (map snd d)) = map (half t) levels).
  { rewrite combine_fst_snd. clear N L M P. induction D as [|level [x w] levels d Hd _ IH]; cbn; [reflexivity|].
    rewrite IH. unfold half at 2. rewrite Hd. reflexivity. }
  rewrite R in P. rewrite <- P. rewrite <- (map_id (cartesian (map fst d))) at 1. rewrite combine_map_map. reflexivity.
Qed.
Lemma component_lin t c levels rows F : equal_lengths t -> levels <> [] -> component t c levels = Some rows ->
  lin F rows = c * iterated (map (half t) levels) F.
Proof.
  intros E N H. rewrite (component_rows t c levels rows E N H). unfold lin. rewrite suml_map. cbn [fst snd].
  rewrite <- tensor_integral, <- suml_scal. apply suml_ext. intros r _. ring.
Qed.

Definition combination (t : quadrature_tables) (dimensions level : nat) (qs : list nat) (G : list nat -> R) : R :=
  suml (fun q => combination_coefficient dimensions level q * suml G (map (map S) (compositions (dimensions - 1) q))) qs.
Lemma grid_step_lin t fuel d level rows q rows' F : equal_lengths t -> (1 <= d)%nat -> grid_step t fuel d level rows q = Some rows' ->
  lin F rows' = lin F rows + combination_coefficient d level q *
    suml (fun levels => iterated (map (half t) levels) F) (map (map S) (compositions (d - 1) q)).
Proof.
  intros E D H. unfold grid_step in H. destruct (same_size_sequences _ _ _) as [s|] eqn:Q; [|discriminate].
  apply same_size_some in Q; [|exact D]. replace (d + q - d)%nat with q in Q by lia.
  destruct (all_some _) as [added|] eqn:A; [|discriminate]. cbn in H. injection H as <-.
  rewrite lin_merge, lin_sort. unfold lin at 1. rewrite suml_app. fold (lin F rows). f_equal. rewrite <- Q.
  assert (N : forall l, In l s -> l <> []).
  { rewrite Q. intros l Hl. apply in_map_iff in Hl. destruct Hl as [m [<- Hm]]. apply compositions_iff in Hm. destruct m; [cbn in Hm; lia|discriminate]. }
  clear Q. apply all_some_nth in A. rewrite suml_concat.
  induction A as [|levels r s added Hr _ IH]; cbn [suml]; [ring|].
  rewrite IH by (intros l Hl; apply N; right; exact Hl). fold (lin F r).
  rewrite (component_lin t _ levels r F E (N levels (or_introl eq_refl)) Hr). ring.
Qed.
Lemma grid_loop_lin t fuel d level qs rows rows' F : equal_lengths t -> (1 <= d)%nat -> grid_loop t fuel d level rows qs = Some rows' ->
  lin F rows' = lin F rows + combination t d level qs (fun levels => iterated (map (half t) levels) F).
Proof.
  intros E D. revert rows. induction qs as [|q qs IH]; intros rows H; cbn in H.
  - injection H as <-. unfold combination. cbn. ring.
  - destruct (grid_step t fuel d level rows q) as [r|] eqn:G; [|discriminate].
    rewrite (IH _ H), (grid_step_lin t fuel d level rows q r F E D G). unfold combination. cbn [suml]. ring.
Qed.

(* copies *)
Definition copied (middle : R) (d : nat) (F : list R -> R) (x : list R) : R :=
  if Req_EM_T (nth d x 0) middle then F x else F (reflect middle d x) + F x.
Lemma firstn_skipn_nth n (x : list R) : (n < length x)%nat -> firstn n x ++ nth n x 0 :: skipn (S n) x = x.
Proof.
  revert n. induction x as [|a x IH]; intros n H; cbn in H; [lia|]. destruct n as [|n]; [reflexivity|].
  cbn [firstn nth skipn app]. f_equal. apply IH. lia.
Qed.
Lemma reflect_middle middle d x : (d < length x)%nat -> nth d x 0 = middle -> reflect middle d x = x.
Proof.
  intros L E. unfold reflect. rewrite E. replace (2 * middle - middle) with middle by ring. unfold set_nthR. rewrite <- E.
  apply firstn_skipn_nth. exact L.
Qed.
Lemma lin_copy F middle d rows : (forall r, In r rows -> (d < length (fst r))%nat) -> lin F (copy_rows middle d rows) = lin (copied middle d F) rows.
Proof.
  intros L. set (copy := filter (fun r : list R * R => if Req_EM_T (nth d (fst r) 0) middle then false else true) rows).
  assert (G : lin F (map (fun r => (reflect middle d (fst r), snd r)) rows ++ copy) = lin (copied middle d F) rows).
  { unfold lin. rewrite suml_app, suml_map. cbn [fst snd]. unfold copy. clear copy.
    induction rows as [|r rows IH]; cbn [suml filter]; [ring|].
    assert (IH' := IH (fun s H => L s (or_intror H))). unfold copied at 1. destruct (Req_EM_T (nth d (fst r) 0) middle) as [E|E].
    - rewrite (reflect_middle middle d (fst r)) by (try exact E; apply L; left; reflexivity). lra.
    - cbn [suml]. lra. }
  unfold copy_rows. fold copy. destruct copy as [|c copy'] eqn:C; [|exact G].
  apply suml_ext. intros r Hr. f_equal. unfold copied. destruct (Req_EM_T (nth d (fst r) 0) middle) as [E|E]; [reflexivity|].
  assert (In r []); [|contradiction]. rewrite <- C. unfold copy. apply filter_In. split; [exact Hr|].
  destruct (Req_EM_T (nth d (fst r) 0) middle); [contradiction|reflexivity].
Qed.
Lemma reflect_length middle d x : (d < length x)%nat -> length (reflect middle d x) = length x.
Proof.
  intros H. unfold reflect, set_nthR. rewrite app_length, firstn_length. cbn [length]. rewrite skipn_length. lia.
Qed.
Lemma copy_rows_in middle d rows r : In r (copy_rows middle d rows) ->
  In r rows \/ exists s, In s rows /\ r = (reflect middle d (fst s), snd s).
Proof.
  unfold copy_rows. destruct (@filter (list R * R) _ rows) as [|c copy] eqn:C; [tauto|]. rewrite <- C, in_app_iff. intros [H|H].
  - right. apply in_map_iff in H. destruct H as [s [<- Hs]]. exists s. tauto.
  - left. apply filter_In in H. tauto.
Qed.
Lemma lin_orthants_seq F middle m k D rows : (k + m <= D)%nat -> (forall r, In r rows -> length (fst r) = D) ->
  lin F (fold_left (fun rows d => copy_rows middle d rows) (seq k m) rows) = lin (fold_right (copied middle) F (seq k m)) rows.
Proof.
  revert k rows. induction m as [|m IH]; intros k rows K L; cbn [seq fold_left fold_right]; [reflexivity|].
  rewrite IH; [|lia|].
  - apply lin_copy. intros r Hr. rewrite (L r Hr). lia.
  - intros r Hr. apply copy_rows_in in Hr. destruct Hr as [Hr|[s [Hs ->]]]; [apply L; exact Hr|].
    cbn [fst]. rewrite reflect_length; rewrite (L s Hs); lia.
Qed.
Lemma copied_cons middle m k F a x : fold_right (copied middle) F (seq (S k) m) (a :: x) =
  fold_right (copied middle) (fun y => F (a :: y)) (seq k m) x.
Proof.
  revert k x. induction m as [|m IH]; intros k x; cbn [seq fold_right]; [reflexivity|].
  unfold copied at 1 3. cbn [nth]. destruct (Req_EM_T (nth k x 0) middle); [apply IH|].
  rewrite IH. f_equal. apply (IH (S k)).
Qed.
(** Mirroring of each dimension. *)
Fixpoint mirror (x : list R) (F : list R -> R) : R :=
  match x with
  | [] => F []
  | a :: x => if Req_EM_T a 0 then mirror x (fun y => F (a :: y)) else mirror x (fun y => F (- a :: y)) + mirror x (fun y => F (a :: y))
  end.
Lemma copied_mirror x F : fold_right (copied 0) F (seq 0 (length x)) x = mirror x F.
Proof.
  revert F. induction x as [|a x IH]; intros F; cbn [length seq fold_right mirror]; [reflexivity|].
  unfold copied at 1. cbn [nth]. destruct (Req_EM_T a 0) as [E|E].
  - rewrite copied_cons. apply IH.
  - unfold reflect, set_nthR. cbn [firstn nth skipn app]. replace (2 * 0 - a) with (- a) by ring.
    rewrite !copied_cons. rewrite !IH. reflexivity.
Qed.
Lemma lin_orthants F D rows : (forall r, In r rows -> length (fst r) = D) ->
  lin F (orthants 0 D rows) = lin (fun x => mirror x F) rows.
Proof.
  intros L. unfold orthants. rewrite (lin_orthants_seq F 0 D 0 D rows); [|lia|exact L].
  apply suml_ext. intros r Hr. f_equal. rewrite <- (L r Hr). apply copied_mirror.
Qed.
Lemma iterated_plus rules F G : iterated rules (fun x => F x + G x) = iterated rules F + iterated rules G.
Proof.
  revert F G. induction rules as [|r rules IH]; intros F G; cbn; [reflexivity|].
  unfold univariate. rewrite <- suml_plus. apply suml_ext. intros p _. rewrite IH. ring.
Qed.
Lemma iterated_mirror rules F : iterated rules (fun x => mirror x F) = iterated (map whole rules) F.
Proof.
  revert F. induction rules as [|r rules IH]; intros F; cbn [iterated map]; [reflexivity|].
  unfold univariate. unfold whole at 2. rewrite suml_flat_map. apply suml_ext. intros p _. cbn [mirror].
  destruct (Req_EM_T (fst p) 0) as [E|E].
  - cbn [suml]. rewrite IH. ring.
  - cbn [suml fst snd]. rewrite iterated_plus, !IH. ring.
Qed.

Lemma tensor_length rules r : In r (tensor rules) -> length (fst r) = length rules.
Proof.
  revert r. induction rules as [|q rules IH]; cbn; intros r H; [destruct H as [<-|[]]; reflexivity|].
  apply in_flat_map in H. destruct H as [p [_ H]]. apply in_map_iff in H. destruct H as [s [<- Hs]]. cbn. rewrite (IH s Hs). reflexivity.
Qed.
Lemma merge_from_in x w l y : In y (map fst (merge_from x w l)) -> y = x \/ In y (map fst l).
Proof.
  revert x w. induction l as [|[z v] l IH]; intros x w; cbn [merge_from]; [cbn; intros [H|[]]; left; symmetry; exact H|].
  destruct (list_eq_dec Req_EM_T z x) as [E|E].
  - intros H. apply IH in H. cbn. tauto.
  - cbn. intros [H|H]; [left; symmetry; exact H|]. apply IH in H. intuition.
Qed.
Lemma merge_in l y : In y (map fst (merge l)) -> In y (map fst l).
Proof. destruct l as [|[x w] l]; [tauto|]. cbn [merge]. intros H. apply merge_from_in in H. cbn. intuition. Qed.
(** A property of all nodes of all components is one of all nodes of the grid before copies. *)
Lemma grid_loop_nodes (P : list R -> Prop) t fuel d level qs rows rows' : equal_lengths t -> (1 <= d)%nat ->
  (forall levels r, length levels = d -> In r (tensor (map (half t) levels)) -> P (fst r)) -> (forall x, In x (map fst rows) -> P x) ->
  grid_loop t fuel d level rows qs = Some rows' -> forall x, In x (map fst rows') -> P x.
Proof.
  intros E D T. revert rows. induction qs as [|q qs IH]; intros rows R H; cbn in H; [injection H as <-; exact R|].
  destruct (grid_step t fuel d level rows q) as [r|] eqn:G; [|discriminate]. apply (IH r); [|exact H]. clear IH H.
  unfold grid_step in G. destruct (same_size_sequences _ _ _) as [s|] eqn:Q; [|discriminate].
  apply same_size_some in Q; [|exact D]. replace (d + q - d)%nat with q in Q by lia.
  destruct (all_some _) as [added|] eqn:A; [|discriminate]. cbn in G. injection G as <-. apply all_some_nth in A.
  intros x Hx. apply merge_in in Hx. apply in_map_iff in Hx. destruct Hx as [p [<- Hp]].
  apply (Permutation_in _ (lexsort_perm _)) in Hp. apply in_app_iff in Hp. destruct Hp as [Hp|Hp]; [apply R, in_map; exact Hp|].
  assert (N : forall l, In l s -> length l = d).
  { rewrite Q. intros l Hl. apply in_map_iff in Hl. destruct Hl as [m [<- Hm]]. apply compositions_iff in Hm. rewrite map_length. lia. }
  clear Q R. induction A as [|levels c s added Hc _ IHA]; [destruct Hp|]. cbn in Hp. apply in_app_iff in Hp.
  assert (Nl := N levels (or_introl eq_refl)). destruct Hp as [Hp|Hp].
  - assert (C := component_rows t (combination_coefficient d level q) levels c E). rewrite C in Hp; [|destruct levels; [cbn in Nl; lia|discriminate]|exact Hc].
    apply in_map_iff in Hp. destruct Hp as [u [<- Hu]]. cbn [fst]. exact (T levels u Nl Hu).
  - apply IHA; [exact Hp|]. intros l Hl. apply N. right. exact Hl.
Qed.

Lemma integral_rows (rows : list row) c F :
  integral (map fst rows) (map (fun v => v / c) (map snd rows)) F = lin F rows / c.
Proof.
  unfold integral, lin. rewrite map_map, combine_map_same, suml_map. cbn [fst snd]. unfold Rdiv.
  rewrite <- suml_scal_r. apply suml_ext. intros r _. ring.
Qed.
Lemma weights_lin (rows : list row) : weights_sum (map snd rows) = lin (fun _ => 1) rows.
Proof. rewrite weights_sum_suml, suml_map. apply suml_ext. intros r _. ring. Qed.

Lemma sparse_grid_rows t fuel d level nodes weights : equal_lengths t -> (1 <= d)%nat ->
  (forall x w, get_quadrature_data t 1 = Some (x, w) -> nth 0 x 0 = 0) ->
  sparse_grid t fuel d level = Some (nodes, weights) ->
  let C F := combination t d level (seq (level - d) (level - (level - d))) (fun levels => iterated (map (fun l => whole (half t l)) levels) F) in
  length nodes = length weights /\ forall F, integral nodes weights F = C F / C (fun _ => 1).
Proof.
  intros E D Mid H C. unfold sparse_grid in H.
  destruct (grid_loop _ _ _ _ _ _) as [rows|] eqn:G; [|discriminate].
  destruct (get_quadrature_data t 1) as [[x1 w1]|] eqn:Q; [|discriminate]. rewrite (Mid x1 w1 eq_refl) in H. injection H as <- <-.
  set (rows2 := lexsort (orthants 0 d rows)). split; [rewrite !map_length; reflexivity|]. intros F.
  assert (V : forall F, lin F rows2 = C F).
  { intros F'. unfold rows2. rewrite lin_sort.
    rewrite lin_orthants.
    - rewrite (grid_loop_lin t fuel d level _ [] rows _ E D G). unfold lin, C, combination. cbn [suml]. rewrite Rplus_0_l.
      apply suml_ext. intros q _. f_equal. apply suml_ext. intros levels _. rewrite iterated_mirror, map_map. reflexivity.
    - intros r Hr. refine (grid_loop_nodes (fun x => length x = d) t fuel d level _ [] rows E D _ _ G (fst r) (in_map fst _ _ Hr)).
      + intros levels u L Hu. apply tensor_length in Hu. rewrite map_length in Hu. congruence.
      + intros x []. }
  rewrite integral_rows, weights_lin, !V. reflexivity.
Qed.

(* distinct nodes *)
Lemma lex_le_total x y : lex_le x y = false -> lex_le y x = true.
Proof.
  revert y. induction x as [|a x IH]; intros [|b y]; cbn; try discriminate; try reflexivity.
  destruct (Rlt_dec a b), (Rlt_dec b a); try discriminate; try reflexivity; try lra. apply IH.
Qed.
Lemma lex_le_refl x : lex_le x x = true.
Proof. induction x as [|a x IH]; cbn; [reflexivity|]. destruct (Rlt_dec a a); [reflexivity|]. exact IH. Qed.
Lemma lex_le_trans x y z : lex_le x y = true -> lex_le y z = true -> lex_le x z = true.
Proof.
  revert y z. induction x as [|a x IH]; intros [|b y] [|c z]; cbn; try discriminate; try reflexivity.
  destruct (Rlt_dec a b), (Rlt_dec b a), (Rlt_dec b c), (Rlt_dec c b), (Rlt_dec a c), (Rlt_dec c a); try discriminate; try reflexivity; try lra.
  apply IH.
Qed.
Lemma lex_le_antisym x y : lex_le x y = true -> lex_le y x = true -> x = y.
Proof.
  revert y. induction x as [|a x IH]; intros [|b y]; cbn; try discriminate; try reflexivity.
  destruct (Rlt_dec a b), (Rlt_dec b a); try discriminate; try lra. intros H1 H2. assert (a = b) by lra. subst b. f_equal. apply IH; assumption.
Qed.
Definition row_le (r s : row) : Prop := lex_le (fst r) (fst s) = true.
Lemma lex_insert_sorted r l : StronglySorted row_le l -> StronglySorted row_le (lex_insert r l).
Proof.
  induction 1 as [|s l H IH F]; cbn; [repeat constructor|].
  destruct (lex_le (fst r) (fst s)) eqn:E.
  - constructor; [constructor; assumption|]. constructor; [exact E|].
    eapply Forall_impl; [|exact F]. intros u Hu. exact (lex_le_trans _ _ _ E Hu).
  - constructor; [exact IH|]. apply (Permutation_Forall (Permutation_sym (lex_insert_perm r l))).
    constructor; [apply lex_le_total; exact E|exact F].
Qed.
Lemma lexsort_sorted l : StronglySorted row_le (lexsort l).
Proof. induction l as [|r l IH]; cbn; [constructor|]. apply lex_insert_sorted, IH. Qed.
Lemma merge_from_nodup x w l : StronglySorted row_le ((x, w) :: l) -> NoDup (map fst (merge_from x w l)).
Proof.
  revert x w. induction l as [|[y v] l IH]; intros x w H; cbn [merge_from]; [repeat constructor; cbn; tauto|].
  inversion H as [|? ? H1 H2]; subst. inversion H1 as [|? ? H3 H4]; subst. inversion H2 as [|? ? H5 H6]; subst.
  destruct (list_eq_dec Req_EM_T y x) as [E|E].
  - apply IH. constructor; assumption.
  - cbn [map fst]. constructor; [|apply IH; exact H1]. intros I. apply merge_from_in in I.
    destruct I as [I|I]; [congruence|]. apply in_map_iff in I. destruct I as [u [Eu Hu]].
    apply E. apply lex_le_antisym; [|exact H5]. rewrite <- Eu. rewrite Forall_forall in H4. exact (H4 u Hu).
Qed.
Lemma merge_nodup l : NoDup (map fst (merge (lexsort l))).
Proof. assert (H := lexsort_sorted l). destruct (lexsort l) as [|[x w] m]; cbn [merge map]; [constructor|]. apply merge_from_nodup, H. Qed.
Lemma grid_loop_nodup t fuel d level qs rows rows' : NoDup (map fst rows) -> grid_loop t fuel d level rows qs = Some rows' -> NoDup (map fst rows').
Proof.
  revert rows. induction qs as [|q qs IH]; intros rows N H; cbn in H; [injection H as <-; exact N|].
  destruct (grid_step t fuel d level rows q) as [r|] eqn:G; [|discriminate]. apply (IH r); [|exact H].
  unfold grid_step in G. destruct (same_size_sequences _ _ _); [|discriminate]. destruct (all_some _); [|discriminate].
  cbn in G. injection G as <-. apply merge_nodup.
Qed.
Lemma set_nthR_nth n v x k : (n < length x)%nat -> nth k (set_nthR n v x) 0 = if Nat.eqb k n then v else nth k x 0.
Proof.
  revert n k. induction x as [|a x IH]; intros n k H; cbn in H; [lia|]. unfold set_nthR in *.
  destruct n as [|n]; destruct k as [|k]; cbn [firstn skipn app nth Nat.eqb]; try reflexivity.
  apply (IH n k). lia.
Qed.
Lemma reflect_nth middle d x k : (d < length x)%nat -> nth k (reflect middle d x) 0 = if Nat.eqb k d then 2 * middle - nth d x 0 else nth k x 0.
Proof. apply set_nthR_nth. Qed.
Lemma reflect_involutive middle d x : (d < length x)%nat -> reflect middle d (reflect middle d x) = x.
Proof.
  intros H. apply (nth_ext _ _ 0 0); [rewrite !reflect_length; rewrite ?reflect_length; lia|]. intros k _.
  rewrite reflect_nth by (rewrite reflect_length; exact H). rewrite !reflect_nth by exact H. rewrite Nat.eqb_refl.
  destruct (Nat.eqb_spec k d) as [->|]; [ring|reflexivity].
Qed.
Lemma nodup_app {A} (l m : list A) : NoDup l -> NoDup m -> (forall x, In x l -> ~ In x m) -> NoDup (l ++ m).
Proof.
  induction l as [|a l IH]; cbn; intros L M D; [exact M|]. inversion L; subst. constructor.
  - rewrite in_app_iff. intros [H|H]; [tauto|]. apply (D a); tauto.
  - apply IH; [assumption..|]. intros x Hx. apply D. tauto.
Qed.
Lemma nodup_filter_map {A B} (f : A -> B) p l : NoDup (map f l) -> NoDup (map f (filter p l)).
Proof.
  induction l as [|a l IH]; cbn; intros H; [constructor|]. inversion H as [|? ? H1 H2]; subst.
  destruct (p a); [|apply IH; exact H2]. cbn. constructor; [|apply IH; exact H2].
  intros I. apply H1. apply in_map_iff in I. destruct I as [b [E Hb]]. apply filter_In in Hb. apply in_map_iff. exists b. tauto.
Qed.
Lemma copy_nodup d D rows : (d < D)%nat -> (forall r, In r rows -> length (fst r) = D /\ 0 <= nth d (fst r) 0) ->
  NoDup (map fst rows) -> NoDup (map fst (copy_rows 0 d rows)).
Proof.
  intros Hd L N. unfold copy_rows. destruct (@filter (list R * R) _ rows) as [|c copy] eqn:C; [exact N|]. rewrite <- C. clear c copy C.
  rewrite map_app, map_map. cbn [fst]. apply nodup_app.
  - assert (G : forall l : list row, (forall r, In r l -> length (fst r) = D) -> NoDup (map fst l) -> NoDup (map (fun r => reflect 0 d (fst r)) l)).
    { intros l. induction l as [|a l IHl]; cbn; intros Ll Nl; [constructor|]. inversion Nl as [|? ? N1 N2]; subst.
      constructor; [|apply IHl; [intros r Hr; apply Ll; tauto|exact N2]]. intros I. apply in_map_iff in I. destruct I as [b [Eb Hb]].
      apply N1. apply in_map_iff. exists b. split; [|exact Hb].
      rewrite <- (reflect_involutive 0 d (fst b)) by (rewrite (Ll b); [exact Hd|tauto]). rewrite Eb.
      apply reflect_involutive. rewrite (Ll a); [exact Hd|tauto]. }
    apply G; [|exact N]. intros r Hr. apply L. exact Hr.
  - apply nodup_filter_map. exact N.
  - intros x Hx Hy. apply in_map_iff in Hx. destruct Hx as [r [<- Hr]]. apply in_map_iff in Hy. destruct Hy as [s [E Hs]].
    apply filter_In in Hs. destruct Hs as [Hs Z]. destruct (Req_EM_T (nth d (fst s) 0) 0) as [|NZ]; [discriminate|].
    destruct (L s Hs) as [Ls Ps]. destruct (L r Hr) as [Lr Pr].
    assert (V : nth d (fst s) 0 = 2 * 0 - nth d (fst r) 0) by (rewrite E, reflect_nth, Nat.eqb_refl; [reflexivity|lia]). lra.
Qed.
Lemma orthants_nodup D m k rows : (k + m <= D)%nat ->
  (forall r, In r rows -> length (fst r) = D /\ forall d, (k <= d < D)%nat -> 0 <= nth d (fst r) 0) ->
  NoDup (map fst rows) -> NoDup (map fst (fold_left (fun rows d => copy_rows 0 d rows) (seq k m) rows)).
Proof.
  revert k rows. induction m as [|m IH]; intros k rows K L N; cbn [seq fold_left]; [exact N|].
  apply IH; [lia| |].
  - intros r Hr. apply copy_rows_in in Hr. destruct Hr as [Hr|[s [Hs ->]]].
    + destruct (L r Hr) as [L1 L2]. split; [exact L1|]. intros d Hd. apply L2. lia.
    + destruct (L s Hs) as [L1 L2]. cbn [fst]. rewrite reflect_length by lia. split; [exact L1|]. intros d Hd.
      rewrite reflect_nth by lia. destruct (Nat.eqb_spec d k); [lia|]. apply L2. lia.
  - apply (copy_nodup k D); [lia| |exact N]. intros r Hr. destruct (L r Hr) as [L1 L2]. split; [exact L1|]. apply L2. lia.
Qed.
Lemma tensor_nonneg rules r d : (forall q, In q rules -> forall p, In p q -> 0 <= fst p) -> In r (tensor rules) -> 0 <= nth d (fst r) 0.
Proof.
  revert r d. induction rules as [|q rules IH]; cbn; intros r d H I; [destruct I as [<-|[]]; destruct d; cbn; lra|].
  apply in_flat_map in I. destruct I as [p [Hp I]]. apply in_map_iff in I. destruct I as [s [<- Hs]]. cbn [fst].
  destruct d as [|d]; cbn [nth]; [apply (H q); tauto|]. apply IH; [|exact Hs]. intros q' Hq'. apply H. tauto.
Qed.
Lemma sparse_grid_sorted t fuel d level nodes weights : equal_lengths t -> (1 <= d)%nat ->
  (forall l x w a, get_quadrature_data t l = Some (x, w) -> In a x -> 0 <= a) ->
  (forall x w, get_quadrature_data t 1 = Some (x, w) -> nth 0 x 0 = 0) ->
  sparse_grid t fuel d level = Some (nodes, weights) ->
  NoDup nodes /\ StronglySorted (fun x y => lex_le x y = true) nodes.
Proof.
  intros E D P Mid H. unfold sparse_grid in H.
  destruct (grid_loop _ _ _ _ _ _) as [rows|] eqn:G; [|discriminate].
  destruct (get_quadrature_data t 1) as [[x1 w1]|] eqn:Q; [|discriminate]. rewrite (Mid x1 w1 eq_refl) in H. injection H as <- <-.
  split.
  - eapply Permutation_NoDup; [apply Permutation_map, Permutation_sym, lexsort_perm|].
    apply (orthants_nodup d); [lia| |].
    + assert (Hn : forall x, In x (map fst rows) -> length x = d /\ forall k, 0 <= nth k x 0).
      { refine (grid_loop_nodes (fun x => length x = d /\ forall k, 0 <= nth k x 0) t fuel d level _ [] rows E D _ _ G).
        - intros levels u L Hu. split; [apply tensor_length in Hu; rewrite map_length in Hu; congruence|]. intros k.
          apply (tensor_nonneg _ _ k) in Hu; [exact Hu|]. intros q Hq p Hp. apply in_map_iff in Hq. destruct Hq as [l [<- _]].
          unfold half in Hp. destruct (get_quadrature_data t l) as [[x w]|] eqn:El; [|destruct Hp].
          apply (P l x w (fst p) El). destruct p as [a b]. apply in_combine_l in Hp. exact Hp.
        - intros x []. }
      intros r Hr. destruct (Hn (fst r) (in_map fst _ _ Hr)) as [L N]. split; [exact L|]. intros k _. apply N.
    + refine (grid_loop_nodup t fuel d level _ [] rows _ G). constructor.
  - assert (S := lexsort_sorted (orthants 0 d rows)). induction S as [|r l _ IH F]; cbn; constructor; [exact IH|].
    clear IH. induction F; cbn; constructor; assumption.
Qed.

(* ---------- Coefficients of sparse grids ---------- *)

Lemma sumn_first n f : sumn (S n) f = f 0%nat + sumn n (fun k => f (S k)).
Proof. induction n as [|n IH]; [cbn; ring|]. change (sumn (S (S n)) f) with (sumn (S n) f + f (S n)). rewrite IH. cbn [sumn]. ring. Qed.
Lemma sumn_extend m e f : (forall k, (m <= k)%nat -> f k = 0) -> sumn (m + e) f = sumn m f.
Proof. intros H. induction e as [|e IH]; [rewrite Nat.add_0_r; reflexivity|]. rewrite Nat.add_succ_r. cbn [sumn]. rewrite IH, H by lia. ring. Qed.
Lemma sumn_reverse n f : sumn n f = sumn n (fun k => f (n - 1 - k)%nat).
Proof.
  induction n as [|n IH]; [reflexivity|]. change (sumn (S n) f) with (sumn n f + f n).
  rewrite (sumn_first n (fun k => f (S n - 1 - k)%nat)). rewrite IH.
  replace (S n - 1 - 0)%nat with n by lia. rewrite Rplus_comm. f_equal. apply sumn_ext. intros k Hk. f_equal. lia.
Qed.
Lemma suml_seq f a n : suml f (seq a n) = sumn n (fun k => f (a + k)%nat).
Proof.
  revert a. induction n as [|n IH]; intros a; [reflexivity|]. cbn [seq suml]. rewrite IH, sumn_first, Nat.add_0_r. f_equal.
  apply sumn_ext. intros k _. f_equal. lia.
Qed.
Lemma binomial_above n k : (n < k)%nat -> binomial n k = 0%nat.
Proof. revert k. induction n as [|n IH]; intros [|k] H; try lia; [reflexivity|]. cbn [binomial]. rewrite !IH by lia. reflexivity. Qed.
Lemma binomial_0 n : binomial n 0 = 1%nat.
Proof. destruct n; reflexivity. Qed.
Lemma binomial_sym n : forall a b, (a + b = n)%nat -> binomial n a = binomial n b.
Proof.
  induction n as [|n IH]; intros a b H.
  - replace a with 0%nat by lia. replace b with 0%nat by lia. reflexivity.
  - assert (D : forall m, binomial m m = 1%nat).
    { induction m as [|m IHm]; [reflexivity|]. cbn [binomial]. rewrite IHm, binomial_above by lia. reflexivity. }
    destruct a as [|a]; [replace b with (S n) by lia; rewrite binomial_0, D; reflexivity|].
    destruct b as [|b]; [replace (S a) with (S n) by lia; rewrite binomial_0, D; reflexivity|].
    cbn [binomial]. rewrite (IH a (S b)) by lia. rewrite (IH (S a) b) by lia. lia.
Qed.
Definition alternating (n : nat) (g : nat -> R) (L : nat) : R :=
  sumn (S L) (fun k => (-1) ^ k * INR (binomial n k) * g (L - k)%nat).
Definition backward (g : nat -> R) (s : nat) : R := match s with O => g O | S r => g s - g r end.
Lemma alternating_step n g L : alternating (S n) g L = alternating n (backward g) L.
Proof.
  unfold alternating. rewrite (sumn_first L (fun k => (-1) ^ k * INR (binomial (S n) k) * g (L - k)%nat)).
  assert (P : sumn L (fun k => (-1) ^ (S k) * INR (binomial (S n) (S k)) * g (L - S k)%nat) =
    sumn L (fun k => (-1) ^ (S k) * INR (binomial n (S k)) * g (L - S k)%nat) - sumn L (fun k => (-1) ^ k * INR (binomial n k) * g (L - S k)%nat)).
  { rewrite <- sumn_minus. apply sumn_ext. intros k _. cbn [binomial]. rewrite plus_INR. cbn [pow]. ring. }
  cbv beta in P |- *. rewrite P. rewrite !binomial_0. clear P.
  assert (Q : sumn (S L) (fun k => (-1) ^ k * INR (binomial n k) * backward g (L - k)%nat) =
    sumn (S L) (fun k => (-1) ^ k * INR (binomial n k) * g (L - k)%nat) - sumn L (fun k => (-1) ^ k * INR (binomial n k) * g (L - S k)%nat)).
  { cbn [sumn]. rewrite Nat.sub_diag. cbn [backward].
    assert (E : sumn L (fun k => (-1) ^ k * INR (binomial n k) * backward g (L - k)%nat) =
      sumn L (fun k => (-1) ^ k * INR (binomial n k) * g (L - k)%nat) - sumn L (fun k => (-1) ^ k * INR (binomial n k) * g (L - S k)%nat)).
    { rewrite <- sumn_minus. apply sumn_ext. intros k Hk. replace (L - k)%nat with (S (L - S k)) by lia. cbn [backward]. ring. }
    rewrite E. ring. }
  rewrite Q, sumn_first, binomial_0. ring.
Qed.
Lemma alternating_ext n g h L : (forall s, (s <= L)%nat -> g s = h s) -> alternating n g L = alternating n h L.
Proof. intros H. unfold alternating. apply sumn_ext. intros k Hk. rewrite H by lia. reflexivity. Qed.
Definition count (n s : nat) : R := INR (length (compositions n s)).
Lemma count_succ n s : count (S n) (S s) = count (S n) s + count n (S s).
Proof.
  unfold count. cbn [compositions].
  assert (G : forall t l, length (flat_map (fun j => map (cons (t - j)%nat) (compositions n j)) l) = fold_right (fun j a => length (compositions n j) + a)%nat 0%nat l).
  { intros t l. induction l as [|j l IH]; cbn [flat_map fold_right]; [reflexivity|]. rewrite app_length, map_length, IH. reflexivity. }
  rewrite !G. rewrite (seq_S (S s)). rewrite fold_right_app. cbn [fold_right plus]. rewrite Nat.add_0_r.
  rewrite <- plus_INR. f_equal.
  assert (F : forall a l, fold_right (fun j a => length (compositions n j) + a)%nat a l = (fold_right (fun j a => length (compositions n j) + a)%nat 0%nat l + a)%nat).
  { intros a l. induction l as [|j l IH]; cbn; [reflexivity|]. rewrite IH. lia. }
  rewrite F. reflexivity.
Qed.
Lemma alternating_count n L : alternating n (count n) L = 1.
Proof.
  induction n as [|n IH].
  - unfold alternating. rewrite sumn_first. cbn [binomial pow]. rewrite Nat.sub_0_r.
    assert (Z : sumn L (fun k => (-1) ^ S k * INR (binomial 0 (S k)) * count 0 (L - S k)%nat) = 0).
    { transitivity (sumn L (fun _ => 0)); [|apply sumn_zero]. apply sumn_ext. intros k _. cbn [binomial INR]. ring. }
    cbn [binomial pow] in Z |- *. rewrite Z. unfold count. cbn. ring.
  - rewrite alternating_step. rewrite <- IH. apply alternating_ext. intros s _. destruct s as [|s]; cbn [backward].
    + unfold count. f_equal. cbn [compositions seq flat_map]. rewrite app_nil_r, map_length. reflexivity.
    + rewrite count_succ. ring.
Qed.
Lemma combination_one t d level : (1 <= d)%nat -> (1 <= level)%nat -> combination t d level (seq (level - d) (level - (level - d))) (fun _ => 1) = 1.
Proof.
  intros D L. unfold combination. rewrite suml_seq. set (m := (level - (level - d))%nat).
  transitivity (sumn m (fun k => (-1) ^ k * INR (binomial (d - 1) k) * count (d - 1) (level - 1 - k)%nat)).
  - rewrite sumn_reverse. apply sumn_ext. intros k Hk. unfold m in Hk.
    replace (level - d + (m - 1 - k))%nat with (level - 1 - k)%nat by (unfold m; lia).
    unfold combination_coefficient. replace (level - (level - 1 - k) - 1)%nat with k by lia.
    replace (binomial (d - 1) (d + (level - 1 - k) - level)) with (binomial (d - 1) k) by (apply binomial_sym; lia).
    rewrite suml_const, map_length. unfold count. ring.
  - rewrite <- (alternating_count (d - 1) (level - 1)). unfold alternating. replace (S (level - 1)) with (m + (level - m))%nat by (unfold m; lia).
    destruct (Nat.le_gt_cases d level) as [C|C].
    + symmetry. apply sumn_extend. intros k Hk. rewrite binomial_above by (unfold m in Hk; lia). cbn. ring.
    + replace (level - m)%nat with 0%nat by (unfold m; lia). rewrite Nat.add_0_r. reflexivity.
Qed.
Lemma iterated_one rules : (forall r, In r rules -> univariate r (fun _ => 1) = 1) -> iterated rules (fun _ => 1) = 1.
Proof.
  induction rules as [|r rules IH]; cbn; intros H; [reflexivity|]. transitivity (univariate r (fun _ => 1)); [|apply H; left; reflexivity].
  unfold univariate. apply suml_ext. intros p _. rewrite IH; [reflexivity|]. intros q Hq. apply H. right. exact Hq.
Qed.

(* ---------- Radical inverses ---------- *)

(** Leading digits as an integer. *)
Fixpoint leading (base : nat) (p : nat -> nat -> nat) (k i : nat) : nat :=
  match k with
  | O => 0
  | S k => leading base p k i * base + p k (digit base k i)
  end.
Lemma stratum_unique n c c' x : (0 < n)%nat -> in_stratum n c x -> in_stratum n c' x -> c = c'.
Proof.
  intros N [A B] [A' B']. apply lt_0_INR in N.
  assert (forall c c', INR c / INR n <= x -> x < INR (S c') / INR n -> (c < S c')%nat).
  { intros a b Ha Hb. apply INR_lt. apply (Rmult_lt_reg_r (/ INR n)); [apply Rinv_0_lt_compat; exact N|]. unfold Rdiv in *. lra. }
  assert (c < S c')%nat by (apply H; assumption). assert (c' < S c)%nat by (apply H; assumption). lia.
Qed.
Section Radical.
Variable base : nat.
Variable p : nat -> nat -> nat.
Variable D : nat.
Hypothesis base2 : (2 <= base)%nat.
Hypothesis perms : forall d, (d < D)%nat -> digit_permutation base (p d).

Lemma base_pos k : 0 < INR base ^ k.
Proof. apply pow_lt. apply lt_0_INR. lia. Qed.
Lemma digit_lt d i : (digit base d i < base)%nat.
Proof. apply Nat.mod_upper_bound. lia. Qed.
Lemma pow_nz k : (base ^ k <> 0)%nat.
Proof. apply Nat.pow_nonzero. lia. Qed.
Lemma leading_lt k i : (k <= D)%nat -> (leading base p k i < base ^ k)%nat.
Proof.
  induction k as [|k IH]; intros H; cbn [leading Nat.pow]; [lia|].
  assert (A := IH ltac:(lia)). destruct (perms k ltac:(lia)) as [B _]. assert (C := B _ (digit_lt k i)). nia.
Qed.
Lemma leading_sum k i : sumn k (fun d => INR (p d (digit base d i)) / INR base ^ (d + 1)) = INR (leading base p k i) / INR base ^ k.
Proof.
  assert (Z : INR base <> 0) by (apply not_0_INR; lia).
  induction k as [|k IH]; cbn [sumn leading]; [cbn; field|]. rewrite IH, plus_INR, mult_INR. rewrite Nat.add_1_r. cbn [pow].
  assert (P := base_pos k). field. split; [|exact Z]. lra.
Qed.
Lemma leading_split k e i : (k + e <= D)%nat ->
  (leading base p k i * base ^ e <= leading base p (k + e) i < (leading base p k i + 1) * base ^ e)%nat.
Proof.
  induction e as [|e IH]; intros H; [rewrite Nat.add_0_r; cbn; lia|]. rewrite Nat.add_succ_r. cbn [leading Nat.pow].
  destruct (IH ltac:(lia)) as [A B]. destruct (perms (k + e) ltac:(lia)) as [P _]. assert (C := P _ (digit_lt (k + e) i)). nia.
Qed.
Lemma in_leading_stratum k i : (k <= D)%nat -> in_stratum (base ^ k) (leading base p k i) (radical_inverse base D p i).
Proof.
  intros H. unfold radical_inverse. rewrite leading_sum. unfold in_stratum. rewrite pow_INR.
  destruct (leading_split k (D - k) i ltac:(lia)) as [A B]. replace (k + (D - k))%nat with D in A, B by lia.
  apply le_INR in A. apply lt_INR in B. rewrite !mult_INR in A, B. rewrite plus_INR in B. rewrite S_INR. cbn [INR] in B.
  rewrite pow_INR in A, B. assert (E : INR base ^ D = INR base ^ k * INR base ^ (D - k)) by (rewrite <- pow_add; f_equal; lia).
  assert (P1 := base_pos k). assert (P2 := base_pos (D - k)). rewrite E. set (x := INR base ^ k) in *. set (y := INR base ^ (D - k)) in *.
  clearbody x y. split.
  - apply (Rmult_le_reg_r (x * y)); [nra|]. replace (INR (leading base p k i) / x * (x * y)) with (INR (leading base p k i) * y) by (field; lra).
    replace (INR (leading base p D i) / (x * y) * (x * y)) with (INR (leading base p D i)) by (field; split; lra). exact A.
  - apply (Rmult_lt_reg_r (x * y)); [nra|]. replace ((INR (leading base p k i) + 1) / x * (x * y)) with ((INR (leading base p k i) + 1) * y) by (field; lra).
    replace (INR (leading base p D i) / (x * y) * (x * y)) with (INR (leading base p D i)) by (field; split; lra). exact B.
Qed.
Lemma leading_inj k i j : (k <= D)%nat -> leading base p k i = leading base p k j -> (i mod base ^ k = j mod base ^ k)%nat.
Proof.
  induction k as [|k IH]; intros H E; [reflexivity|].
  cbn [leading] in E. destruct (perms k ltac:(lia)) as [P Q].
  assert (B1 := P _ (digit_lt k i)). assert (B2 := P _ (digit_lt k j)).
  assert (E1 : leading base p k i = leading base p k j /\ p k (digit base k i) = p k (digit base k j)).
  { apply (Nat.div_mod_unique base); lia. }
  destruct E1 as [E1 E2]. apply Q in E2; [|apply digit_lt..]. apply IH in E1; [|lia].
  rewrite Nat.pow_succ_r' . rewrite (Nat.mul_comm base). rewrite !Nat.mod_mul_r; [|apply pow_nz|lia|apply pow_nz|lia].
  rewrite E1. unfold digit in E2. rewrite E2. reflexivity.
Qed.
Lemma radical_unit i : 0 <= radical_inverse base D p i < 1.
Proof.
  destruct (in_leading_stratum 0 i ltac:(lia)) as [A B]. cbn [leading Nat.pow INR] in A, B. rewrite Rdiv_1 in A, B || (unfold Rdiv in *; rewrite Rinv_1 in *).
  lra.
Qed.
Lemma radical_distinct i j : (i < base ^ D)%nat -> (j < base ^ D)%nat -> radical_inverse base D p i = radical_inverse base D p j -> i = j.
Proof.
  intros Hi Hj E. assert (A := in_leading_stratum D i (le_n _)). rewrite E in A. assert (B := in_leading_stratum D j (le_n _)).
  assert (N : (0 < base ^ D)%nat) by lia. assert (C := stratum_unique _ _ _ _ N A B). apply leading_inj in C; [|lia].
  rewrite !Nat.mod_small in C by assumption. exact C.
Qed.
Lemma radical_strata k m c : (k <= D)%nat -> (c < base ^ k)%nat ->
  exactly_one (fun i => (m * base ^ k <= i < (m + 1) * base ^ k)%nat /\ in_stratum (base ^ k) c (radical_inverse base D p i)).
Proof.
  intros K C. set (n := (base ^ k)%nat) in *. assert (N := pow_nz k). fold n in N.
  assert (I : forall i j, (m * n <= i < (m + 1) * n)%nat -> (m * n <= j < (m + 1) * n)%nat -> leading base p k i = leading base p k j -> i = j).
  { intros i j Hi Hj E. apply leading_inj in E; [|exact K]. fold n in E.
    assert (M : forall i, (m * n <= i < (m + 1) * n)%nat -> (i mod n = i - m * n)%nat).
    { intros a Ha. replace a with (a - m * n + m * n)%nat at 1 by lia. rewrite Nat.mod_add by lia. apply Nat.mod_small. nia. }
    rewrite !M in E by assumption. lia. }
  assert (L : incl (seq 0 n) (map (leading base p k) (seq (m * n) n))).
  { apply NoDup_length_incl.
    - assert (G : forall l : list nat, NoDup l -> (forall a, In a l -> (m * n <= a < (m + 1) * n)%nat) -> NoDup (map (leading base p k) l)).
      { induction l as [|a l IH]; cbn; intros Nl Bl; [constructor|]. inversion Nl as [|? ? N1 N2]; subst. constructor.
        - intros H. apply in_map_iff in H. destruct H as [b [Eb Hb]]. apply N1. rewrite <- (I b a); [exact Hb|apply Bl; tauto..|exact Eb].
        - apply IH; [exact N2|]. intros b Hb. apply Bl. tauto. }
      apply G; [apply seq_NoDup|]. intros a Ha. apply in_seq in Ha. lia.
    - rewrite map_length, !seq_length. lia.
    - intros a Ha. apply in_map_iff in Ha. destruct Ha as [b [<- _]]. apply in_seq. assert (X := leading_lt k b K). fold n in X. lia. }
  assert (X := L c ltac:(apply in_seq; lia)). apply in_map_iff in X. destruct X as [i [Ei Hi]]. apply in_seq in Hi.
  exists i. split.
  - split; [lia|]. rewrite <- Ei. apply in_leading_stratum. exact K.
  - intros j [Hj Sj]. apply I; [lia|lia|]. rewrite Ei. apply (stratum_unique n _ _ (radical_inverse base D p j)); [lia| |exact Sj].
    apply in_leading_stratum. exact K.
Qed.
End Radical.

(* ---------- Points of Halton sequences ---------- *)

Lemma permutes_digit l n : permutes l n -> digit_permutation n (fun k => nth k l 0%nat).
Proof.
  intros P. assert (L : length l = n) by (rewrite (Permutation_length P); apply seq_length). split.
  - intros k Hk. assert (I : In (nth k l 0%nat) (seq 0 n)) by (apply (Permutation_in _ P), nth_In; lia). apply in_seq in I. lia.
  - intros j k Hj Hk E. apply (proj1 (NoDup_nth l 0%nat)); [|lia|lia|exact E].
    apply (Permutation_NoDup (Permutation_sym P)), seq_NoDup.
Qed.
Lemma map2_nth (f : R -> nat -> R) a b q : length a = length b -> (q < length a)%nat ->
  nth q (map2 f a b) 0 = f (nth q a 0) (nth q b 0%nat).
Proof.
  revert b q. induction a as [|x a IH]; intros [|y b] q L H; cbn in *; try lia. destruct q as [|q]; [reflexivity|].
  apply IH; lia.
Qed.
Lemma map2_length {A B C} (f : A -> B -> C) a b : length a = length b -> length (map2 f a b) = length a.
Proof. intros L. unfold map2. rewrite map_length, combine_length. lia. Qed.
Lemma digit_0 base i : digit base 0 i = (i mod base)%nat.
Proof. unfold digit. rewrite Nat.pow_0_r, Nat.div_1_r. reflexivity. Qed.
Lemma digit_S base d i : (base <> 0)%nat -> digit base (S d) i = digit base d (i / base).
Proof.
  intros H. unfold digit. cbn [Nat.pow]. rewrite Nat.div_div; [reflexivity|exact H|]. apply Nat.pow_nonzero. exact H.
Qed.

Section Halton.
Variable S : Type.
Variable g : generator S.
Hypothesis good : good_generator g.

Lemma halton_digits_sum n base scramble : (base <> 0)%nat -> forall factor indices sequence state,
  length sequence = length indices ->
  let column := fst (halton_digits S g n base scramble factor indices sequence state) in
  exists p, (forall d, (d < n)%nat -> digit_permutation base (p d)) /\ (scramble = false -> p = unscrambled) /\
    length column = length indices /\
    forall q, (q < length indices)%nat -> nth q column 0 =
      nth q sequence 0 + sumn n (fun d => factor / INR base ^ d * INR (p d (digit base d (nth q indices 0%nat)))).
Proof.
  intros B. induction n as [|n IH]; intros factor indices sequence state L.
  - exists unscrambled. split; [intros d Hd; lia|]. split; [reflexivity|]. split; [exact L|]. intros q Hq. cbn. ring.
  - cbn [halton_digits].
    set (rem0 := map (fun i => (i mod base)%nat) indices). set (quotients := map (fun i => (i / base)%nat) indices).
    assert (X : exists p0 state', digit_permutation base p0 /\ (scramble = false -> p0 = fun k => k) /\
      (if scramble then let (p, state) := permutation g state base in (map (fun k => nth k p 0%nat) rem0, state) else (rem0, state)) =
      (map p0 rem0, state')).
    { destruct scramble.
      - assert (P := proj1 good state base). destruct (permutation g state base) as [l state']. exists (fun k => nth k l 0%nat), state'.
        split; [apply permutes_digit; exact P|]. split; [discriminate|reflexivity].
      - exists (fun k => k), state. split; [split; auto|]. split; [reflexivity|]. rewrite map_id. reflexivity. }
    destruct X as [p0 [state' [P0 [U0 X]]]]. rewrite X. clear X.
    set (added := map2 (fun s k => s + factor * INR k) sequence (map p0 rem0)).
    assert (La : length added = length quotients).
    { unfold added, quotients. rewrite map2_length; [rewrite map_length; exact L|]. unfold rem0. rewrite !map_length. exact L. }
    destruct (IH (factor / INR base) quotients added state' La) as [p [P [U [Lc V]]]].
    exists (fun d => match d with O => p0 | Datatypes.S d => p d end). split; [|split; [|split]].
    + intros [|d] Hd; [exact P0|]. apply P. lia.
    + intros F. rewrite (U0 F), (U F). apply functional_extensionality. intros [|d]; reflexivity.
    + rewrite Lc. unfold quotients. apply map_length.
    + intros q Hq. rewrite V by (unfold quotients; rewrite map_length; exact Hq).
      unfold added. rewrite map2_nth by (unfold rem0; rewrite ?map_length; lia).
      rewrite (sumn_first n (fun d => factor / INR base ^ d * INR (match d with O => p0 | Datatypes.S d => p d end (digit base d (nth q indices 0%nat))))).
      cbv beta iota. rewrite digit_0. rewrite Rplus_assoc. f_equal. f_equal.
      * cbn [pow]. unfold Rdiv. rewrite Rinv_1, Rmult_1_r. f_equal. f_equal. unfold rem0. rewrite map_map.
        change 0%nat with ((fun i => p0 (i mod base)%nat) 0%nat) at 1 || idtac.
        rewrite (nth_indep _ 0%nat (p0 (0 mod base)%nat)) by (rewrite map_length; exact Hq).
        rewrite (map_nth (fun i => p0 (i mod base)%nat)). reflexivity.
      * apply sumn_ext. intros d _. rewrite digit_S by exact B. f_equal.
        -- cbn [pow]. unfold Rdiv. rewrite Rinv_mult, Rmult_assoc. reflexivity.
        -- f_equal. f_equal. f_equal. unfold quotients. replace 0%nat with (0 / base)%nat at 1 by (apply Nat.div_0_l; exact B).
           apply (map_nth (fun i => (i / base)%nat)).
Qed.

Lemma halton_column n base scramble start size state : (base <> 0)%nat ->
  let column := fst (halton_digits S g n base scramble (1 / INR base) (seq start size) (repeat 0 size) state) in
  exists p, (forall d, (d < n)%nat -> digit_permutation base (p d)) /\ (scramble = false -> p = unscrambled) /\
    length column = size /\ forall q, (q < size)%nat -> nth q column 0 = radical_inverse base n p (start + q).
Proof.
  intros B. destruct (halton_digits_sum n base scramble B (1 / INR base) (seq start size) (repeat 0 size) state) as [p [P [U [L V]]]].
  { rewrite repeat_length, seq_length. reflexivity. }
  exists p. split; [exact P|]. split; [exact U|]. rewrite seq_length in L, V. split; [exact L|].
  intros q Hq. rewrite V by exact Hq. rewrite nth_repeat, Rplus_0_l. unfold radical_inverse. apply sumn_ext. intros d _.
  rewrite seq_nth by exact Hq. rewrite Nat.add_1_r. cbn [pow]. assert (INR base <> 0) by (apply not_0_INR; exact B).
  field. split; [|exact H]. apply pow_nonzero. exact H.
Qed.

Lemma primes_2 d b : get_prime d = Some b -> (2 <= b)%nat.
Proof.
  intros H. apply nth_error_In in H. assert (F : forallb (Nat.leb 2) primes = true) by (vm_compute; reflexivity).
  rewrite forallb_forall in F. apply Nat.leb_le, F, H.
Qed.
Lemma primes_digits d b : get_prime d = Some b -> forall i, (Z.of_nat i < 2 ^ 44)%Z -> (i < b ^ digits b)%nat.
Proof.
  intros H i Hi. apply nth_error_In in H.
  assert (F : forallb (fun b => Z.leb (2 ^ 44) (Z.of_nat b ^ Z.of_nat (digits b))) primes = true) by (vm_compute; reflexivity).
  rewrite forallb_forall in F. specialize (F b H). apply Z.leb_le in F. apply Nat2Z.inj_lt. rewrite Nat2Z.inj_pow. lia.
Qed.

(** Points in each dimension are radical inverses of consecutive integers, with digits permuted when scrambled. *)
Definition halton_points (bases : list nat) (start size : nat) (scramble : bool) (point : nat -> nat -> R) (p : nat -> nat -> nat -> nat) : Prop :=
  forall d b, nth_error bases d = Some b ->
    (forall k, (k < digits b)%nat -> digit_permutation b (p d k)) /\ (scramble = false -> p d = unscrambled) /\
    forall q, (q < size)%nat -> point q d = radical_inverse b (digits b) (p d) (start + q).
Lemma halton_columns_points dimensions size start scramble : forall dimension state columns state',
  halton_columns S g dimension dimensions size start scramble state = Some (columns, state') ->
  length columns = dimensions /\ (dimensions = 0 \/ dimension + dimensions <= 168)%nat /\
  exists p, halton_points (firstn dimensions (skipn dimension primes)) start size scramble (fun q d => nth q (nth d columns []) 0) p.
Proof.
  induction dimensions as [|n IH]; intros dimension state columns state' H; cbn [halton_columns] in H.
  - injection H as <- <-. split; [reflexivity|]. split; [left; reflexivity|]. exists (fun _ => unscrambled). intros d b Hd. destruct d; discriminate.
  - destruct (get_prime dimension) as [base|] eqn:Eb; [|discriminate].
    assert (B := primes_2 _ _ Eb).
    destruct (halton_column (digits base) base scramble start size state ltac:(lia)) as [p0 [P0 [U0 [L0 V0]]]].
    destruct (halton_digits S g (digits base) base scramble (1 / INR base) (seq start size) (repeat 0 size) state) as [column state1].
    cbn [fst] in *. destruct (halton_columns S g (Datatypes.S dimension) n size start scramble state1) as [[columns' state2]|] eqn:R; [|discriminate].
    cbn in H. injection H as <- <-. destruct (IH _ _ _ _ R) as [L [Bd [p P]]]. split; [cbn; lia|]. split.
    { right. assert (dimension < 168)%nat by (apply (nth_error_Some primes dimension); unfold get_prime in Eb; rewrite Eb; discriminate). lia. }
    exists (fun d => match d with O => p0 | Datatypes.S d => p d end). intros d b Hd.
    assert (Sk : skipn dimension primes = base :: skipn (Datatypes.S dimension) primes).
    { unfold get_prime in Eb. clear - Eb. revert Eb. generalize primes. induction dimension as [|k IHk]; intros [|a l] E; cbn in *; try discriminate.
      - congruence.
      - apply IHk in E. exact E. }
    rewrite Sk in Hd. cbn [firstn] in Hd. destruct d as [|d]; cbn [nth_error] in Hd.
    + injection Hd as <-. split; [exact P0|]. split; [exact U0|]. exact V0.
    + destruct (P d b Hd) as [P1 [P2 P3]]. split; [exact P1|]. split; [exact P2|]. exact P3.
Qed.
Lemma transposed_nth ppf size columns q d : (q < size)%nat -> (d < length columns)%nat ->
  nth d (nth q (transposed ppf size columns) []) 0 = ppf (nth q (nth d columns []) 0).
Proof.
  intros Hq Hd. unfold transposed.
  rewrite (nth_indep _ [] (map (fun c => ppf (nth 0 c 0)) columns)) by (rewrite map_length, seq_length; exact Hq).
  rewrite (map_nth (fun q => map (fun c => ppf (nth q c 0)) columns) (seq 0 size) 0%nat q). rewrite seq_nth by exact Hq. cbn [plus].
  rewrite (nth_indep _ 0 ((fun c => ppf (nth q c 0)) [])) by (rewrite map_length; exact Hd).
  rewrite (map_nth (fun c => ppf (nth q c 0)) columns [] d). reflexivity.
Qed.
Lemma halton_nodes ppf dimensions size start scramble state nodes weights state' :
  halton S g ppf dimensions size start scramble state = Some ((nodes, weights), state') ->
  length nodes = size /\ weights = equal_weights size /\ (dimensions <= 168)%nat /\
  exists point p, (forall q d, (q < size)%nat -> (d < dimensions)%nat -> nth d (nth q nodes []) 0 = ppf (point q d)) /\
    halton_points (firstn dimensions primes) start size scramble point p.
Proof.
  intros H. unfold halton in H. destruct (halton_columns _ _ _ _ _ _ _ _) as [[columns s]|] eqn:C; [|discriminate].
  cbn in H. injection H as <- <- <-. destruct (halton_columns_points _ _ _ _ _ _ _ _ C) as [L [B [p P]]].
  split; [unfold transposed; rewrite map_length, seq_length; reflexivity|]. split; [reflexivity|]. split; [lia|].
  exists (fun q d => nth q (nth d columns []) 0), p. split; [|exact P].
  intros q d Hq Hd. apply transposed_nth; lia.
Qed.

(* ---------- Latin hypercube samples ---------- *)

Lemma lhs_column_strata size modified state : (0 < size)%nat ->
  let column := fst (lhs_column S g size modified state) in
  length column = size /\ forall c, (c < size)%nat -> exactly_one (fun q => (q < size)%nat /\ in_stratum size c (nth q column 0)).
Proof.
  intros N. unfold lhs_column. destruct (proj1 (proj2 good) state (if modified then 1 else size)%nat) as [Lu Fu].
  destruct (uniform g state (if modified then 1 else size)%nat) as [u state1]. cbn [fst] in Lu, Fu.
  assert (P := proj1 good state1 size). destruct (permutation g state1 size) as [l state2]. cbn [fst] in P |- *.
  assert (Ll : length l = size) by (rewrite (Permutation_length P); apply seq_length).
  set (shifted := map _ (seq 0 size)). split; [rewrite map_length; exact Ll|].
  assert (V : forall q, (q < size)%nat -> in_stratum size (nth q l 0%nat) (nth q (map (fun k => nth k shifted 0 / INR size) l) 0)).
  { intros q Hq. rewrite (nth_indep _ 0 ((fun k => nth k shifted 0 / INR size) 0%nat)) by (rewrite map_length; lia).
    rewrite (map_nth (fun k => nth k shifted 0 / INR size) l 0%nat q).
    destruct (permutes_digit l size P) as [B _]. assert (Bq := B q Hq). cbn beta in Bq. set (k := nth q l 0%nat) in *. clearbody k.
    assert (E : exists v, 0 <= v < 1 /\ nth k shifted 0 = INR k + v).
    { exists (nth (if modified then 0 else k)%nat u 0). split.
      - rewrite Forall_forall in Fu. apply Fu, nth_In. destruct modified; lia.
      - unfold shifted. rewrite (nth_indep _ 0 ((fun i => INR i + nth (if modified then 0 else i)%nat u 0) 0%nat)) by (rewrite map_length, seq_length; exact Bq).
        rewrite (map_nth (fun i => INR i + nth (if modified then 0 else i)%nat u 0) (seq 0 size) 0%nat k). rewrite seq_nth by exact Bq. reflexivity. }
    destruct E as [v [Hv ->]]. unfold in_stratum. rewrite S_INR. apply lt_0_INR in N. unfold Rdiv. split.
    - apply Rmult_le_compat_r; [left; apply Rinv_0_lt_compat; exact N|lra].
    - apply Rmult_lt_compat_r; [apply Rinv_0_lt_compat; exact N|lra]. }
  intros c Hc. assert (I : In c l) by (apply (Permutation_in _ (Permutation_sym P)), in_seq; lia).
  destruct (In_nth l c 0%nat I) as [q [Hq Eq]]. rewrite Ll in Hq. exists q. split.
  - split; [exact Hq|]. rewrite <- Eq. apply V. exact Hq.
  - intros j [Hj Sj]. destruct (permutes_digit l size P) as [_ Q]. apply Q; [exact Hj|exact Hq|]. rewrite Eq.
    apply (stratum_unique size _ _ (nth j (map (fun k => nth k shifted 0 / INR size) l) 0)); [exact N|apply V; exact Hj|exact Sj].
Qed.
Lemma lhs_columns_strata dimensions size modified : (0 < size)%nat -> forall state,
  let columns := fst (lhs_columns S g dimensions size modified state) in
  length columns = dimensions /\ forall d c, (d < dimensions)%nat -> (c < size)%nat ->
    exactly_one (fun q => (q < size)%nat /\ in_stratum size c (nth q (nth d columns []) 0)).
Proof.
  intros N. induction dimensions as [|n IH]; intros state; cbn [lhs_columns]; [split; [reflexivity|intros; lia]|].
  assert (C := lhs_column_strata size modified state N). destruct (lhs_column S g size modified state) as [column state1].
  assert (R := IH state1). destruct (lhs_columns S g n size modified state1) as [columns state2]. cbn [fst length] in *.
  destruct R as [L R]. destruct C as [_ C]. split; [lia|]. intros [|d] c Hd Hc; cbn [nth]; [apply C; exact Hc|]. apply R; lia.
Qed.
Lemma lhs_nodes ppf dimensions size modified state nodes weights state' : (0 < size)%nat ->
  lhs S g ppf dimensions size modified state = ((nodes, weights), state') ->
  length nodes = size /\ weights = equal_weights size /\
  exists point : nat -> nat -> R, (forall q d, (q < size)%nat -> (d < dimensions)%nat -> nth d (nth q nodes []) 0 = ppf (point q d)) /\
    forall d c, (d < dimensions)%nat -> (c < size)%nat -> exactly_one (fun q => (q < size)%nat /\ in_stratum size c (point q d)).
Proof.
  intros N H. unfold lhs in H. destruct (lhs_columns_strata dimensions size modified N state) as [L C].
  destruct (lhs_columns S g dimensions size modified state) as [columns s]. cbn [fst] in L, C. injection H as <- <- <-.
  split; [unfold transposed; rewrite map_length, seq_length; reflexivity|]. split; [reflexivity|].
  exists (fun q d => nth q (nth d columns []) 0). split; [|exact C]. intros q d Hq Hd. apply transposed_nth; lia.
Qed.

Lemma equal_weights_sum size : (0 < size)%nat -> weights_sum (equal_weights size) = 1.
Proof.
  intros N. unfold equal_weights. rewrite weights_sum_suml.
  assert (G : forall n c, suml (fun w => w) (repeat c n) = INR n * c).
  { induction n as [|n IH]; intros c; [cbn; ring|]. rewrite S_INR. cbn [repeat suml]. rewrite IH. ring. }
  rewrite G. field. apply not_0_INR. lia.
Qed.
End Halton.

(* ---------- Blocks ---------- *)

Lemma binomial_C n k : (k <= n)%nat -> INR (binomial n k) = C n k.
Proof.
  revert k. induction n as [|n IH]; intros k H.
  - replace k with 0%nat by lia. cbn. unfold C. cbn. field.
  - destruct k as [|k]; [rewrite binomial_0; unfold C; rewrite Nat.sub_0_r; assert (A := INR_fact_neq_0 (S n)); set (f := INR (fact (S n))) in *; clearbody f; cbn; field; exact A|].
    cbn [binomial]. rewrite plus_INR. destruct (Nat.eq_dec k n) as [->|N].
    + rewrite (binomial_above n (S n)) by lia. rewrite IH by lia. unfold C. rewrite !Nat.sub_diag. cbn [INR fact].
      rewrite Rplus_0_r. assert (A := INR_fact_neq_0 n). assert (B := INR_fact_neq_0 (S n)). cbn [fact] in B.
      field. split; assumption.
    + rewrite !IH by lia. apply pascal. lia.
Qed.
Lemma sound_nonzero (middle : bool) x w : sound_data middle x w ->
  length x = length w /\ (forall a, In a x -> 0 <= a) /\ (if middle then exists y, x = 0 :: y /\ ~ In 0 y else ~ In 0 x).
Proof.
  intros [L [H _]]. split; [exact L|].
  assert (Z : forall y, Forall (Rlt 0) y -> (forall a, In a y -> 0 <= a) /\ ~ In 0 y).
  { intros y F. rewrite Forall_forall in F. split; [intros a Ha; left; apply F; exact Ha|]. intros I. apply F in I. lra. }
  destruct middle.
  - destruct H as [y [-> F]]. destruct (Z y F) as [Z1 Z2]. split; [|exists y; tauto]. intros a [<-|Ha]; [lra|apply Z1; exact Ha].
  - apply Z. exact H.
Qed.
Lemma dropped_le level nested : (dropped level nested <= 1)%nat.
Proof. unfold dropped. destruct nested; [lia|]. assert (level mod 2 < 2)%nat by (apply Nat.mod_upper_bound; lia). lia. Qed.
Lemma dropped_odd level nested : (nested || Nat.odd level)%bool = Nat.eqb (dropped level nested) 1.
Proof.
  unfold dropped. destruct nested; [reflexivity|]. cbn [orb]. destruct (Nat.odd level) eqn:O.
  - apply Nat.odd_spec in O. destruct O as [k ->]. rewrite Nat.add_comm, Nat.mul_comm, Nat.mod_add by lia. reflexivity.
  - rewrite <- Nat.negb_even in O. apply negb_false_iff, Nat.even_spec in O. destruct O as [k ->]. rewrite Nat.mul_comm, Nat.mod_mul by lia. reflexivity.
Qed.
Lemma product_integral t nested level x w dimensions nodes weights F : (1 <= level)%nat -> (1 <= dimensions)%nat -> sound_tables t nested ->
  get_quadrature_data t level = Some (x, w) -> product_rule t dimensions level nested = Some (nodes, weights) ->
  length nodes = length weights /\ integral nodes weights F = iterated (repeat (whole_line x w) dimensions) F.
Proof.
  intros Lv D T Q H. unfold product_rule in H. rewrite Q in H. cbv zeta in H. injection H as <- <-.
  destruct (sound_nonzero _ _ _ (T level x w Lv Q)) as [L [_ N]]. rewrite dropped_odd in N.
  assert (Dl := dropped_le level nested). set (drop := dropped level nested) in *.
  destruct (product_rows (repeat (mirrored_nodes drop x) dimensions) (repeat (mirrored_weights drop w) dimensions)) as [P PL].
  { apply forall2_repeat. apply mirrored_length. exact L. }
  { destruct dimensions; [lia|discriminate]. }
  split; [exact PL|]. unfold integral. rewrite P. etransitivity; [apply tensor_integral|]. rewrite map_combine_repeat. cbn [fst snd].
  clear - N Dl L. revert F. induction dimensions as [|n IH]; intros F; cbn [repeat iterated]; [reflexivity|].
  rewrite mirrored_rule; [|exact L| | |exact Dl].
  - unfold univariate. apply suml_ext. intros p _. f_equal. apply IH.
  - intros E. rewrite E in N. cbn in N. exact N.
  - intros E. rewrite E in N. cbn in N. exact N.
Qed.
Lemma suml_repeat_one : forall (r : rule) n, univariate r (fun _ => 1) = 1 -> iterated (repeat r n) (fun _ => 1) = 1.
Proof. intros r n H. apply iterated_one. intros q Hq. apply repeat_spec in Hq. subst q. exact H. Qed.
Lemma integral_one {A} (nodes : list A) weights : length nodes = length weights -> integral nodes weights (fun _ => 1) = weights_sum weights.
Proof.
  intros L. rewrite weights_sum_suml. rewrite <- (map_snd_combine nodes weights L) at 2. rewrite suml_map. apply suml_ext. intros p _. ring.
Qed.
Lemma tables_lengths t nested : sound_tables t nested -> equal_lengths t.
Proof.
  intros T level x w H. destruct level as [|level].
  - apply (T 1%nat x w (le_n _)). exact H.
  - apply (T (S level) x w); [lia|exact H].
Qed.
Lemma tables_middle t nested : sound_tables t nested -> forall x w, get_quadrature_data t 1 = Some (x, w) -> nth 0 x 0 = 0.
Proof.
  intros T x w H. destruct (T 1%nat x w (le_n _) H) as [_ [M _]]. rewrite orb_true_r in M. destruct M as [y [-> _]]. reflexivity.
Qed.
Lemma whole_one t nested level : sound_tables t nested -> (1 <= level)%nat -> get_quadrature_data t level <> None -> univariate (whole (half t level)) (fun _ => 1) = 1.
Proof.
  intros T L N. unfold half. destruct (get_quadrature_data t level) as [[x w]|] eqn:Q; [|tauto].
  exact (proj2 (proj2 (T level x w L Q))).
Qed.
(** Levels that are needed are in the tables if the grid is built. *)
Lemma grid_loop_levels t fuel d level qs rows rows' : (1 <= d)%nat -> grid_loop t fuel d level rows qs = Some rows' ->
  forall q l k, In q qs -> In l (map (map S) (compositions (d - 1) q)) -> In k l -> get_quadrature_data t k <> None.
Proof.
  intros D. revert rows. induction qs as [|q qs IH]; intros rows H q' l k Hq Hl Hk; cbn in Hq; [tauto|]. cbn in H.
  destruct (grid_step t fuel d level rows q) as [r|] eqn:G; [|discriminate]. destruct Hq as [->|Hq]; [|exact (IH r H q' l k Hq Hl Hk)].
  unfold grid_step in G. destruct (same_size_sequences _ _ _) as [s|] eqn:Q; [|discriminate]. apply same_size_some in Q; [|exact D].
  replace (d + q' - d)%nat with q' in Q by lia. rewrite <- Q in Hl. destruct (all_some _) as [added|] eqn:A; [|discriminate].
  apply all_some_nth in A. clear Q G. induction A as [|levels c s added Hc _ IHA]; [destruct Hl|].
  destruct Hl as [->|Hl]; [|exact (IHA Hl)].
  unfold component in Hc. destruct (all_some (map (get_quadrature_data t) l)) as [m|] eqn:B; [|discriminate].
  apply all_some_nth in B. clear - B Hk. induction B as [|a b l m E _ IH]; [destruct Hk|].
  destruct Hk as [->|Hk]; [rewrite E; discriminate|exact (IH Hk)].
Qed.
Lemma suml_enumerates (G : list nat -> R) P l m : enumerates P l -> enumerates P m -> suml G l = suml G m.
Proof.
  intros [N1 E1] [N2 E2]. apply suml_perm. apply NoDup_Permutation; [exact N1|exact N2|]. intros x. rewrite E1, E2. reflexivity.
Qed.
Lemma compositions_enumerate d q : (1 <= d)%nat -> enumerates (positive_sequence d (d + q)) (map (map S) (compositions (d - 1) q)).
Proof.
  intros D. split.
  - apply FinFun.Injective_map_NoDup; [|apply compositions_nodup]. intros x y H.
    assert (I : forall a b, map S a = map S b -> a = b).
    { induction a as [|u a IH]; intros [|v b] E; cbn in E; try discriminate; [reflexivity|]. injection E as E1 E2. f_equal; [exact E1|]. apply IH. exact E2. }
    apply I. exact H.
  - intros x. rewrite in_map_iff. assert (T : forall m, fold_right plus 0%nat (map S m) = (length m + total m)%nat).
    { unfold total. induction m as [|a m IH]; cbn; [reflexivity|]. rewrite IH. lia. }
    split.
    + intros [m [<- Hm]]. apply compositions_iff in Hm. destruct Hm as [L S]. split; [rewrite map_length; lia|]. split.
      * apply Forall_forall. intros a Ha. apply in_map_iff in Ha. destruct Ha as [b [<- _]]. lia.
      * rewrite T. lia.
    + intros [L [F S]]. exists (map pred x). assert (E : map Datatypes.S (map pred x) = x).
      { clear - F. rewrite map_map. induction F as [|a x Ha _ IH]; cbn; [reflexivity|]. rewrite IH. f_equal. lia. }
      split; [exact E|]. apply compositions_iff. rewrite map_length. split; [lia|].
      assert (T' := T (map pred x)). rewrite E, map_length in T'. lia.
Qed.
Lemma combination_smolyak t d level sequences F : (1 <= d)%nat ->
  (forall q, enumerates (positive_sequence d (d + q)) (sequences q)) ->
  combination t d level (seq (level - d) (level - (level - d))) (fun levels => iterated (map (fun l => whole (half t l)) levels) F) =
  smolyak d level (fun l => whole (half t l)) sequences F.
Proof.
  intros D E. unfold combination, smolyak. rewrite suml_seq.
  set (f := fun q => if Nat.leb level (q + d) then _ else _).
  transitivity (sumn ((level - d) + (level - (level - d))) f); [|f_equal; lia].
  assert (Sp : forall a b (f : nat -> R), sumn (a + b) f = sumn a f + sumn b (fun k => f (a + k)%nat)).
  { intros a b h. induction b as [|b IH]; [rewrite Nat.add_0_r; cbn; ring|]. rewrite Nat.add_succ_r. cbn [sumn]. rewrite IH. ring. }
  rewrite Sp. replace (sumn (level - d) f) with 0.
  - rewrite Rplus_0_l. apply sumn_ext. intros k Hk. unfold f. destruct (Nat.leb_spec level (level - d + k + d)) as [H|H]; [|lia].
    unfold combination_coefficient. rewrite <- (binomial_C (d - 1) (level - 1 - (level - d + k))) by lia.
    replace (level - (level - d + k) - 1)%nat with (level - 1 - (level - d + k))%nat by lia.
    replace (binomial (d - 1) (d + (level - d + k) - level)) with (binomial (d - 1) (level - 1 - (level - d + k))) by (apply binomial_sym; lia).
    f_equal. apply (suml_enumerates _ _ _ _ (compositions_enumerate d (level - d + k) D) (E _)).
  - symmetry. transitivity (sumn (level - d) (fun _ => 0)); [|apply sumn_zero]. apply sumn_ext. intros k Hk. unfold f.
    destruct (Nat.leb_spec level (k + d)) as [H|H]; [lia|reflexivity].
Qed.
Lemma combination_total t nested fuel d level nodes weights : (1 <= d)%nat -> (1 <= level)%nat -> sound_tables t nested ->
  sparse_grid t fuel d level = Some (nodes, weights) ->
  combination t d level (seq (level - d) (level - (level - d))) (fun levels => iterated (map (fun l => whole (half t l)) levels) (fun _ => 1)) = 1.
Proof.
  intros D L T H. etransitivity; [|apply (combination_one t d level D L)]. unfold combination. apply suml_ext. intros q Hq. f_equal.
  apply suml_ext. intros l Hl. apply iterated_one. intros r Hr. apply in_map_iff in Hr. destruct Hr as [k [<- Hk]].
  apply (whole_one t nested k T).
  - apply in_map_iff in Hl. destruct Hl as [m [<- _]]. apply in_map_iff in Hk. destruct Hk as [j [<- _]]. lia.
  - unfold sparse_grid in H. destruct (grid_loop _ _ _ _ _ _) as [rows|] eqn:G; [|discriminate].
    exact (grid_loop_levels t fuel d level _ [] rows D G q l k Hq Hl Hk).
Qed.
Lemma sparse_integral t nested fuel d level nodes weights sequences F : (1 <= d)%nat -> (1 <= level)%nat -> sound_tables t nested ->
  (forall q, enumerates (positive_sequence d (d + q)) (sequences q)) ->
  sparse_grid t fuel d level = Some (nodes, weights) ->
  length nodes = length weights /\ integral nodes weights F = smolyak d level (fun l => whole (half t l)) sequences F.
Proof.
  intros D L T E H. destruct (sparse_grid_rows t fuel d level nodes weights (tables_lengths t nested T) D (tables_middle t nested T) H) as [Ln I].
  split; [exact Ln|]. rewrite I. rewrite (combination_total t nested fuel d level nodes weights D L T H).
  rewrite (combination_smolyak t d level sequences F D E). field.
Qed.

Section Many.
Variable S : Type.
Variable g : generator S.
Variable ppf : R -> R.
Variable t : quadrature_tables.
Variable fuel : nat.
Hypothesis good : good_generator g.

Lemma build_block s dimensions size count state nodes weights state' : (1 <= dimensions)%nat -> (1 <= size)%nat -> tables_for t s ->
  build S g ppf t fuel s dimensions size count state = Some ((nodes, weights), state') ->
  length nodes = length weights /\ weights_sum weights = 1 /\ (sampling s = true -> weights = repeat (1 / INR size) size).
Proof.
  intros D N T H. destruct s as [|discard scramble|modified|nested|]; cbn [build] in H.
  - unfold monte_carlo in H. assert (L := proj2 (proj2 good) state size dimensions). destruct (normal g state size dimensions) as [x s].
    cbn in L. injection H as <- <- <-. split; [unfold equal_weights; rewrite repeat_length; exact L|].
    split; [apply equal_weights_sum; lia|reflexivity].
  - destruct (halton_nodes S g good _ _ _ _ _ _ _ _ _ H) as [L [-> _]]. split; [unfold equal_weights; rewrite repeat_length; exact L|].
    split; [apply equal_weights_sum; lia|reflexivity].
  - injection H as H. destruct (lhs_nodes S g good ppf dimensions size modified state nodes weights state' ltac:(lia) H) as [L [-> _]].
    split; [unfold equal_weights; rewrite repeat_length; exact L|]. split; [apply equal_weights_sum; lia|reflexivity].
  - destruct (product_rule t dimensions size nested) as [[x w]|] eqn:P; [|discriminate]. cbn in H. injection H as <- <- <-.
    destruct (get_quadrature_data t size) as [[x0 w0]|] eqn:Q; [|unfold product_rule in P; rewrite Q in P; discriminate].
    destruct (product_integral t nested size x0 w0 dimensions x w (fun _ => 1) N D T Q P) as [L I].
    split; [exact L|]. split; [|discriminate]. rewrite <- (integral_one x w L), I. apply suml_repeat_one.
    exact (proj2 (proj2 (T size x0 w0 N Q))).
  - destruct (sparse_grid t fuel dimensions size) as [[x w]|] eqn:P; [|discriminate]. cbn in H. injection H as <- <- <-.
    destruct T as [nested T].
    destruct (sparse_grid_rows t fuel dimensions size x w (tables_lengths t nested T) D (tables_middle t nested T) P) as [L I].
    split; [exact L|]. split; [|discriminate]. rewrite <- (integral_one x w L), I.
    rewrite (combination_total t nested fuel dimensions size x w D N T P). field.
Qed.
Lemma build_many_blocks {I} s dimensions size : (1 <= dimensions)%nat -> (1 <= size)%nat -> tables_for t s ->
  forall (ids : list I) count state is xs ws, build_many S g ppf t fuel s dimensions size count ids state = Some (is, xs, ws) ->
  exists blocks : list (list (list R) * list R), length blocks = length ids /\
    is = concat (map (fun p => repeat (fst p) (length (snd (snd p)))) (combine ids blocks)) /\
    xs = concat (map fst blocks) /\ ws = concat (map snd blocks) /\
    Forall (fun b => length (fst b) = length (snd b) /\ weights_sum (snd b) = 1 /\ (sampling s = true -> snd b = repeat (1 / INR size) size)) blocks.
Proof.
  intros D N T. induction ids as [|i ids IH]; intros count state is xs ws H; cbn [build_many] in H.
  - injection H as <- <- <-. exists []. cbn. repeat (split; [reflexivity|]). constructor.
  - destruct (build S g ppf t fuel s dimensions size count state) as [[[nodes weights] state']|] eqn:B; [|discriminate].
    destruct (build_many S g ppf t fuel s dimensions size (count + length weights) ids state') as [[[is' xs'] ws']|] eqn:M; [|discriminate].
    cbn in H. injection H as <- <- <-. destruct (IH _ _ _ _ _ M) as [blocks [L [E1 [E2 [E3 F]]]]].
    exists ((nodes, weights) :: blocks). cbn. split; [lia|]. rewrite E1, E2, E3. repeat (split; [reflexivity|]). constructor; [|exact F].
    exact (build_block s dimensions size count state nodes weights state' D N T B).
Qed.
Lemma build_many_halton {I} discard scramble dimensions size : (1 <= size)%nat ->
  forall (ids : list I) count state is xs ws,
  build_many S g ppf t fuel (Halton discard scramble) dimensions size count ids state = Some (is, xs, ws) ->
  exists p : nat -> nat -> nat -> nat -> nat,
    (forall k d b e, nth_error primes d = Some b -> (d < dimensions)%nat -> (e < digits b)%nat -> digit_permutation b (p k d e)) /\
    (scramble = false -> p = fun _ _ => unscrambled) /\
    forall k q d b, (k < length ids)%nat -> (q < size)%nat -> (d < dimensions)%nat -> nth_error primes d = Some b ->
      nth d (nth (k * size + q) xs []) 0 = ppf (radical_inverse b (digits b) (p k d) (discard + count + k * size + q)).
Proof.
  intros N. induction ids as [|i ids IH]; intros count state is xs ws H; cbn [build_many] in H.
  - exists (fun _ _ => unscrambled). split; [intros; split; auto|]. split; [reflexivity|]. intros k q d b Hk. inversion Hk.
  - destruct (build S g ppf t fuel (Halton discard scramble) dimensions size count state) as [[[nodes weights] state']|] eqn:B; [|discriminate].
    destruct (build_many S g ppf t fuel (Halton discard scramble) dimensions size (count + length weights) ids state') as [[[is' xs'] ws']|] eqn:M; [|discriminate].
    cbn in H. injection H as <- <- <-. destruct (IH _ _ _ _ _ M) as [p [P1 [P2 P3]]]. cbn [build] in B.
    destruct (halton_nodes S g good _ _ _ _ _ _ _ _ _ B) as [L [W [Dim [point [p0 [V Q]]]]]].
    assert (Lw : length weights = size) by (rewrite W; unfold equal_weights; apply repeat_length). rewrite Lw in *.
    assert (Fn : forall d b, (d < dimensions)%nat -> nth_error primes d = Some b -> nth_error (firstn dimensions primes) d = Some b).
    { intros d b Hd E. rewrite <- E. clear - Hd. revert d Hd. generalize primes. induction dimensions as [|n IHn]; intros [|a l] [|d] Hd; cbn; try lia; try reflexivity. apply IHn. lia. }
    exists (fun k d => match k with O => if Nat.ltb d dimensions && Nat.ltb d 168 then p0 d else unscrambled | Datatypes.S k => p k d end). split; [|split].
    + intros [|k] d b e Hb Hd He; [|exact (P1 k d b e Hb Hd He)].
      assert (d < 168)%nat by (apply (nth_error_Some primes d); rewrite Hb; discriminate).
      destruct (Nat.ltb_spec d dimensions), (Nat.ltb_spec d 168); try lia. cbn [andb].
      exact (proj1 (Q d b (Fn d b Hd Hb)) e He).
    + intros F. rewrite (P2 F). apply functional_extensionality. intros [|k]; [|reflexivity]. apply functional_extensionality. intros d.
      destruct (Nat.ltb_spec d dimensions) as [Hd|]; [|reflexivity]. destruct (Nat.ltb_spec d 168) as [Hd'|]; [|reflexivity]. cbn [andb].
      destruct (nth_error primes d) as [b|] eqn:Hb; [|apply nth_error_None in Hb; cbn in Hb; lia].
      exact (proj1 (proj2 (Q d b (Fn d b Hd Hb))) F).
    + intros [|k] q d b Hk Hq Hd Hb.
      * rewrite app_nth1 by lia. cbn [Nat.mul plus]. rewrite (V q d Hq Hd).
        assert (d < 168)%nat by (apply (nth_error_Some primes d); rewrite Hb; discriminate).
        destruct (Nat.ltb_spec d dimensions), (Nat.ltb_spec d 168); try lia. cbn [andb].
        rewrite (proj2 (proj2 (Q d b (Fn d b Hd Hb))) q Hq). rewrite Nat.add_0_r. reflexivity.
      * rewrite app_nth2 by nia. cbn [length] in Hk. replace (Datatypes.S k * size + q - length nodes)%nat with (k * size + q)%nat by nia.
        rewrite (P3 k q d b) by (try assumption; lia). f_equal. f_equal. lia.
Qed.
End Many.
