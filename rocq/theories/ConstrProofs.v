(** Lemmas about construction of data. *)
From Coq Require Import Reals Lra Lia ZArith List Bool Arith Permutation Sorted.
From Verif Require Import Base FltModel BasicsModel BasicsSpec BasicsProofs ConstrModel ConstrSpec.
Import ListNotations.
Local Open Scope nat_scope.

(* ---------- build_id_data ---------- *)

Definition ceiling (a b : nat) : nat := (a + (b - 1)) / b.
Lemma ceiling_le a b n : 0 < b -> (ceiling a b <= n <-> a <= n * b).
Proof.
  intros Hb. unfold ceiling. split; intros H.
  - assert (E := Nat.div_mod_eq (a + (b - 1)) b). assert (M := Nat.mod_upper_bound (a + (b - 1)) b ltac:(lia)).
    assert (b * ((a + (b - 1)) / b) <= b * n) by (apply Nat.mul_le_mono_l; exact H). lia.
  - apply Nat.lt_succ_r. apply Nat.div_lt_upper_bound; [lia|]. lia.
Qed.
Lemma floor_eq a J v : 0 < J -> (a / J = v <-> v * J <= a /\ a < (v + 1) * J).
Proof.
  intros HJ. split.
  - intros <-. assert (E := Nat.div_mod_eq a J). assert (M := Nat.mod_upper_bound a J ltac:(lia)). nia.
  - intros [A B]. symmetry. apply (Nat.div_unique a J v (a - v * J)); lia.
Qed.
Lemma firm_range J F j v : 0 < F -> 0 < J -> (j * F / J = v <-> ceiling (v * J) F <= j /\ j < ceiling ((v + 1) * J) F).
Proof.
  intros HF HJ. rewrite floor_eq by exact HJ. rewrite ceiling_le by exact HF.
  assert (L := ceiling_le ((v + 1) * J) F j HF). lia.
Qed.
Lemma occurrences_seq (f : nat -> nat) v a b : forall n s,
  (forall j, f j = v <-> a <= j /\ j < b) ->
  occurrences v (map f (seq s n)) = (Nat.min b (s + n) - Nat.max a s).
Proof.
  induction n as [|n IH]; intros s H; cbn [seq map].
  - cbn. lia.
  - unfold occurrences in *. cbn [count_occ]. rewrite IH by exact H. assert (E := H s).
    destruct (Nat.eq_dec (f s) v) as [D|D]; [apply E in D; lia|].
    assert (~ (a <= s /\ s < b)) by tauto. lia.
Qed.
Lemma firm_count J F f : 0 < F -> F <= J -> f < F ->
  occurrences f (map (fun j => j * F / J) (seq 0 J)) = ceiling ((f + 1) * J) F - ceiling (f * J) F.
Proof.
  intros HF HJ Hf. rewrite (occurrences_seq _ f (ceiling (f * J) F) (ceiling ((f + 1) * J) F)).
  - assert (ceiling ((f + 1) * J) F <= J) by (apply ceiling_le; [lia|nia]). lia.
  - intros j. apply firm_range; lia.
Qed.
Lemma ceiling_spec a b : 0 < b -> a <= ceiling a b * b /\ ceiling a b * b < a + b.
Proof.
  intros Hb. unfold ceiling. assert (E := Nat.div_mod_eq (a + (b - 1)) b).
  assert (M := Nat.mod_upper_bound (a + (b - 1)) b ltac:(lia)). nia.
Qed.
Lemma firm_count_bounds J F f : 0 < F -> F <= J -> f < F ->
  let c := occurrences f (map (fun j => j * F / J) (seq 0 J)) in
  J / F <= c /\ c <= ceiling J F /\ 1 <= c.
Proof.
  intros HF HJ Hf c. unfold c. rewrite firm_count by assumption.
  destruct (ceiling_spec (f * J) F HF) as [A B]. destruct (ceiling_spec ((f + 1) * J) F HF) as [C D].
  destruct (ceiling_spec J F HF) as [G H].
  assert (E := Nat.div_mod_eq J F). assert (M := Nat.mod_upper_bound J F ltac:(lia)).
  set (q := J / F) in *. set (x := ceiling (f * J) F) in *. set (y := ceiling ((f + 1) * J) F) in *. set (z := ceiling J F) in *.
  assert (1 <= q) by (destruct q; nia).
  assert (x + q <= y) by nia. assert (y <= x + z) by nia. lia.
Qed.
Lemma ceiling_floor J F : 0 < F -> ceiling J F <= J / F + 1.
Proof.
  intros HF. destruct (ceiling_spec J F HF) as [G H]. assert (E := Nat.div_mod_eq J F). assert (M := Nat.mod_upper_bound J F ltac:(lia)). nia.
Qed.
Lemma first_firm_count J F : 0 < F -> F <= J ->
  occurrences 0 (map (fun j => j * F / J) (seq 0 J)) = ceiling J F.
Proof.
  intros HF HJ. rewrite firm_count by lia. replace ((0 + 1) * J) with J by lia.
  assert (ceiling (0 * J) F <= 0) by (apply ceiling_le; lia). lia.
Qed.

Lemma repeat_nth (t J n d : nat) : n < J -> nth n (repeat t J) d = t.
Proof. revert n; induction J as [|J IH]; intros [|n] H; simpl; try lia; auto. apply IH. lia. Qed.
Lemma flat_map_nth (f : nat -> list nat) J d : (forall t, length (f t) = J) -> 0 < J -> forall T s n, n < T * J ->
  nth n (flat_map f (seq s T)) d = nth (n mod J) (f (s + n / J)) d /\ length (flat_map f (seq s T)) = T * J.
Proof.
  intros HL HJ. induction T as [|T IH]; intros s n Hn; [lia|]. cbn [seq flat_map]. split.
  - destruct (Nat.lt_ge_cases n J) as [L|L].
    + rewrite app_nth1 by (rewrite HL; exact L). rewrite Nat.mod_small, Nat.div_small, Nat.add_0_r by exact L. reflexivity.
    + rewrite app_nth2 by (rewrite HL; exact L). rewrite HL.
      rewrite (proj1 (IH (S s) (n - J) ltac:(lia))). f_equal.
      * rewrite <- (Nat.mod_add (n - J) 1 J) by lia. f_equal. lia.
      * f_equal. assert (E := Nat.div_add (n - J) 1 J ltac:(lia)). replace (n - J + 1 * J) with n in E by lia. lia.
  - rewrite app_length, HL. destruct T; [cbn; lia|]. rewrite (proj2 (IH (S s) 0 ltac:(nia))). lia.
Qed.
Lemma id_data_rows T J F rows : build_id_data T J F = Some rows ->
  (1 <= T /\ 1 <= F /\ F <= J) /\ length rows = T * J /\
  forall t j, t < T -> j < J -> nth (t * J + j) rows (0, 0) = (t, j * F / J).
Proof.
  unfold build_id_data. destruct ((T <? 1) || (F <? 1)) eqn:B; [discriminate|].
  apply orb_false_iff in B. destruct B as [B1 B2]. apply Nat.ltb_ge in B1, B2.
  destruct (J <? F) eqn:B3; [discriminate|]. apply Nat.ltb_ge in B3. intros H. injection H as <-.
  assert (A1 := flat_map_nth (fun t => repeat t J) J 0 (fun t => repeat_length t J) ltac:(lia) T 0).
  assert (A2 := flat_map_nth (fun _ => seq 0 J) J 0 (fun t => seq_length J 0) ltac:(lia) T 0).
  assert (L1 := proj2 (A1 0 ltac:(nia))). assert (L2 := proj2 (A2 0 ltac:(nia))).
  split; [lia|]. split.
  - rewrite combine_length, map_length, L1, L2. lia.
  - intros t j Ht Hj. assert (Hn : t * J + j < T * J) by nia.
    rewrite combine_nth by (rewrite map_length, L1, L2; reflexivity). f_equal.
    + rewrite (proj1 (A1 _ Hn)). rewrite Nat.add_comm, Nat.mod_add, Nat.div_add, Nat.div_small, Nat.mod_small by lia.
      apply repeat_nth. exact Hj.
    + rewrite (nth_indep _ 0 (0 * F / J)) by (rewrite map_length, L2; exact Hn). rewrite (map_nth (fun j => j * F / J)).
      rewrite (proj1 (A2 _ Hn)). rewrite Nat.add_comm, Nat.mod_add, Nat.mod_small by lia. rewrite seq_nth by exact Hj. reflexivity.
Qed.
Lemma id_data_market T J F rows t : build_id_data T J F = Some rows -> t < T ->
  map snd (filter (fun r => Nat.eqb (fst r) t) rows) = map (fun j => j * F / J) (seq 0 J).
Proof.
  intros H Ht. unfold build_id_data in H. destruct ((T <? 1) || (F <? 1)) eqn:B; [discriminate|].
  destruct (J <? F) eqn:B3; [discriminate|]. injection H as <-. clear B B3.
  assert (C : forall (a b : nat -> list nat) l, (forall t, length (a t) = length (b t)) ->
    combine (flat_map a l) (flat_map b l) = flat_map (fun t => combine (a t) (b t)) l).
  { intros a b l E. induction l as [|x l IH]; [reflexivity|]. cbn [flat_map]. rewrite <- IH. specialize (E x). revert E.
    generalize (a x) (b x). induction l0 as [|y l0 IH0]; intros [|z l1] E; cbn in *; try discriminate; [reflexivity|].
    f_equal. apply IH0. lia. }
  assert (M : forall (g : nat -> nat) (b : nat -> list nat) l, map g (flat_map b l) = flat_map (fun t => map g (b t)) l).
  { intros g b l. induction l as [|x l IH]; [reflexivity|]. cbn [flat_map]. rewrite map_app, IH. reflexivity. }
  rewrite M, C by (intros; rewrite repeat_length, map_length, seq_length; reflexivity).
  assert (P : forall s (l : list nat), map snd (filter (fun r => Nat.eqb (fst r) t) (combine (repeat s J) l))
      = if Nat.eqb s t then firstn J l else []).
  { intros s. induction J as [|J IH]; intros l; cbn; [destruct (s =? t); reflexivity|].
    destruct l as [|x l]; cbn; [destruct (s =? t); reflexivity|]. destruct (s =? t) eqn:E; cbn; rewrite IH; reflexivity. }
  assert (Q : forall s n, map snd (filter (fun r => Nat.eqb (fst r) t)
      (flat_map (fun u => combine (repeat u J) (map (fun j => j * F / J) (seq 0 J))) (seq s n)))
      = if (s <=? t) && (t <? s + n) then map (fun j => j * F / J) (seq 0 J) else []).
  { intros s n. revert s. induction n as [|n IH]; intros s; cbn [seq flat_map].
    - destruct (Nat.leb_spec s t), (Nat.ltb_spec t (s + 0)); cbn; try reflexivity. lia.
    - rewrite filter_app, map_app, P, IH. rewrite firstn_all2 by (rewrite map_length, seq_length; lia).
      destruct (Nat.eqb_spec s t) as [E|E], (Nat.leb_spec (S s) t), (Nat.ltb_spec t (S s + n)), (Nat.leb_spec s t), (Nat.ltb_spec t (s + S n));
        cbn [andb]; try lia; rewrite ?app_nil_r; reflexivity. }
  rewrite Q. destruct (Nat.leb_spec 0 t), (Nat.ltb_spec t (0 + T)); cbn; try lia. reflexivity.
Qed.
Lemma firm_order J F : 0 < J -> forall j j', j <= j' -> j * F / J <= j' * F / J.
Proof. intros HJ j j' H. apply Nat.div_le_mono; [lia|]. nia. Qed.
Lemma firm_below J F j : 0 < F -> j < J -> j * F / J < F.
Proof. intros HF Hj. apply Nat.div_lt_upper_bound; nia. Qed.

(* ---------- Assignment by market ---------- *)

Lemma existsb_in n rows : existsb (Nat.eqb n) rows = true <-> In n rows.
Proof.
  rewrite existsb_exists. split; [intros [x [H E]]; apply Nat.eqb_eq in E; subst; exact H|].
  intros H. exists n. split; [exact H|apply Nat.eqb_refl].
Qed.
Lemma by_market_spec {A} (block : list nat -> nat -> A) n rows : forall l (array : nat -> A),
  (forall market, In market l -> In n (snd market) -> snd market = rows) ->
  (exists market, In market l /\ In n (snd market)) ->
  by_market l block array n = block rows (position n rows).
Proof.
  intros l array H [mk [M1 M2]]. unfold by_market.
  assert (G : forall (l : list (Z * list nat)) (array : nat -> A), (forall market, In market l -> In n (snd market) -> snd market = rows) ->
    fold_left (fun array market => assign_rows (snd market) (block (snd market)) array) l array n =
    if existsb (fun market => existsb (Nat.eqb n) (snd market)) l then block rows (position n rows) else array n).
  { clear. induction l as [|mk l IH]; intros array H; [reflexivity|]. cbn [fold_left existsb].
    rewrite IH by (intros; apply H; [right|]; assumption). unfold assign_rows.
    destruct (existsb (Nat.eqb n) (snd mk)) eqn:E; cbn [orb].
    - apply existsb_in in E. rewrite (H mk (or_introl eq_refl) E). destruct (existsb _ l); reflexivity.
    - reflexivity. }
  rewrite G by exact H.
  replace (existsb _ l) with true; [reflexivity|]. symmetry. apply existsb_exists. exists mk. split; [exact M1|].
  apply existsb_in. exact M2.
Qed.
Lemma rows_of_in ids t n : In n (rows_of ids t) <-> n < length ids /\ nth n ids 0%Z = t.
Proof. unfold rows_of. rewrite filter_In, in_seq, Z.eqb_eq. intuition lia. Qed.
Lemma indices_eq ids : market_indices ids = map (fun t => (t, rows_of ids t)) (group_unique ids (stable_argsort ids)).
Proof. apply get_indices_spec, stable_argsort_correct. Qed.
Lemma by_market_rows {A} ids (block : list nat -> nat -> A) array n : n < length ids ->
  let rows := rows_of ids (nth n ids 0%Z) in
  by_market (market_indices ids) block array n = block rows (position n rows) /\
  position n rows < length rows /\ nth (position n rows) rows 0 = n.
Proof.
  intros Hn rows. assert (I : In n rows) by (apply rows_of_in; auto). split; [|apply position_nth; exact I].
  apply by_market_spec; rewrite indices_eq.
  - intros mk HM HI. apply in_map_iff in HM. destruct HM as [t [<- _]]. cbn [snd] in *. apply rows_of_in in HI.
    destruct HI as [_ <-]. reflexivity.
  - exists (nth n ids 0%Z, rows). split; [|exact I]. apply in_map_iff. exists (nth n ids 0%Z). split; [reflexivity|].
    apply (group_unique_spec ids _ (stable_is_argsort _ _ (stable_argsort_correct ids))). apply nth_In. exact Hn.
Qed.

(* ---------- Sums over rows ---------- *)

Lemma sum_where_sumn N c x : sum_where N c x = sumn N (fun m => if c m then x m else 0%R).
Proof. induction N as [|N IH]; cbn; [reflexivity|]. rewrite IH. reflexivity. Qed.
Lemma sum_where_ext N (c c' : nat -> bool) (x x' : nat -> R) : (forall m, m < N -> (if c m then x m else 0%R) = (if c' m then x' m else 0%R)) ->
  sum_where N c x = sum_where N c' x'.
Proof. intros H. rewrite !sum_where_sumn. apply sumn_ext. exact H. Qed.
Lemma sum_rows_app x l l' : sum_rows x (l ++ l') = (sum_rows x l + sum_rows x l')%R.
Proof. unfold sum_rows. induction l as [|a l IH]; cbn; [symmetry; apply Rplus_0_l|]. rewrite IH. ring. Qed.
Lemma sum_rows_filter N c x : sum_rows x (filter c (seq 0 N)) = sum_where N c x.
Proof.
  induction N as [|N IH]; [reflexivity|]. rewrite seq_S, filter_app, sum_rows_app, IH. cbn [sum_where plus filter].
  destruct (c N); cbn; ring.
Qed.
Lemma sum_rows_of ids t x : sum_rows x (rows_of ids t) = sum_where (length ids) (fun m => Z.eqb (nth m ids 0%Z) t) x.
Proof. apply sum_rows_filter. Qed.
Lemma sumn_rows x l : sumn (length l) (fun r => x (nth r l 0)) = sum_rows x l.
Proof.
  induction l as [|a l IH] using rev_ind; [reflexivity|]. rewrite app_length, sum_rows_app. cbn [length]. rewrite Nat.add_1_r. cbn [sumn].
  rewrite app_nth2 by lia. rewrite Nat.sub_diag. rewrite <- IH.
  rewrite (sumn_ext _ _ (fun r => x (nth r l 0))) by (intros r Hr; rewrite app_nth1 by exact Hr; reflexivity). cbn. ring.
Qed.
Lemma sum_rows_ext (x y : nat -> R) l : (forall m, In m l -> x m = y m) -> sum_rows x l = sum_rows y l.
Proof. induction l as [|a l IH]; intros H; cbn; [reflexivity|]. rewrite H by (left; reflexivity). f_equal. apply IH. intros; apply H; right; assumption. Qed.
Lemma sum_rows_flat x (f : Z -> list nat) u : sum_rows x (flat_map f u) = fold_right (fun t acc => sum_rows x (f t) + acc)%R 0%R u.
Proof. induction u as [|t u IH]; cbn [flat_map fold_right]; [reflexivity|]. rewrite sum_rows_app, IH. reflexivity. Qed.

(* ---------- BLP instruments ---------- *)

Lemma lex_lt_irrefl a : lex_lt a a = false.
Proof. unfold lex_lt. rewrite !Z.ltb_irrefl, andb_false_r. reflexivity. Qed.
Lemma lex_lt_trans a b c : lex_lt a b = true -> lex_lt b c = true -> lex_lt a c = true.
Proof.
  unfold lex_lt. destruct a as [a1 a2], b as [b1 b2], c as [c1 c2]; cbn.
  destruct (Z.ltb_spec a1 b1), (Z.ltb_spec b1 c1), (Z.ltb_spec a1 c1), (Z.eqb_spec a1 b1), (Z.eqb_spec b1 c1), (Z.eqb_spec a1 c1),
    (Z.ltb_spec a2 b2), (Z.ltb_spec b2 c2), (Z.ltb_spec a2 c2); cbn; intros; try discriminate; try reflexivity; lia.
Qed.
Lemma lex_lt_total a b : a = b \/ lex_lt a b = true \/ lex_lt b a = true.
Proof.
  unfold lex_lt. destruct a as [a1 a2], b as [b1 b2]; cbn.
  destruct (Z.ltb_spec a1 b1); [auto|]. destruct (Z.ltb_spec b1 a1); [auto|]. assert (a1 = b1) by lia. subst b1. rewrite Z.eqb_refl. cbn.
  destruct (Z.ltb_spec a2 b2); [auto|]. destruct (Z.ltb_spec b2 a2); [auto|]. left. f_equal. lia.
Qed.
Lemma filter_strict {A} (f g : A -> bool) l x : (forall y, f y = true -> g y = true) -> In x l -> f x = false -> g x = true ->
  length (filter f l) < length (filter g l).
Proof.
  intros S. assert (LE : forall l, length (filter f l) <= length (filter g l)).
  { clear -S. induction l as [|y l IH]; cbn; [lia|]. destruct (f y) eqn:E; [rewrite (S y E); cbn; lia|]. destruct (g y); cbn; lia. }
  induction l as [|y l IH]; intros HI F G; [destruct HI|]. destruct HI as [->|HI]; cbn.
  - rewrite F, G. cbn. specialize (LE l). lia.
  - specialize (IH HI F G). destruct (f y) eqn:E; [rewrite (S y E); cbn; lia|]. destruct (g y); cbn; lia.
Qed.
Lemma rank_eq (l : list (Z * Z)) x y : In x l -> In y l ->
  (length (filter (fun z => lex_lt z x) l) = length (filter (fun z => lex_lt z y) l) <-> x = y).
Proof.
  intros Hx Hy. split; [|intros ->; reflexivity]. intros E. destruct (lex_lt_total x y) as [H|[H|H]]; [exact H| |].
  - exfalso. assert (L := filter_strict (fun z => lex_lt z x) (fun z => lex_lt z y) l x
      (fun z Hz => lex_lt_trans z x y Hz H) Hx (lex_lt_irrefl x) H). lia.
  - exfalso. assert (L := filter_strict (fun z => lex_lt z y) (fun z => lex_lt z x) l y
      (fun z Hz => lex_lt_trans z y x Hz H) Hy (lex_lt_irrefl y) H). lia.
Qed.
Lemma interact_length a b : length a = length b -> length (interact_ids a b) = length a.
Proof. intros H. unfold interact_ids. rewrite map_length, combine_length. lia. Qed.
Lemma interact_eq a b n m : length a = length b -> n < length a -> m < length a ->
  (Z.eqb (nth n (interact_ids a b) 0%Z) (nth m (interact_ids a b) 0%Z) = same a n m && same b n m).
Proof.
  intros HL Hn Hm. unfold interact_ids.
  assert (LC : length (combine a b) = length a) by (rewrite combine_length; lia).
  set (g := fun x => Z.of_nat (length (filter (fun y => lex_lt y x) (combine a b)))).
  assert (N : forall k, k < length a -> nth k (map g (combine a b)) 0%Z = g (nth k a 0%Z, nth k b 0%Z)).
  { intros k Hk. rewrite (nth_indep _ 0%Z (g (0%Z, 0%Z))) by (rewrite map_length, LC; exact Hk).
    rewrite map_nth, combine_nth by exact HL. reflexivity. }
  fold g. rewrite !N by assumption. unfold g.
  assert (I : forall k, k < length a -> In (nth k a 0%Z, nth k b 0%Z) (combine a b)).
  { intros k Hk. rewrite <- combine_nth by exact HL. apply nth_In. rewrite LC. exact Hk. }
  assert (R := rank_eq (combine a b) _ _ (I n Hn) (I m Hm)). unfold same.
  destruct (Z.eqb_spec (Z.of_nat (length (filter (fun y => lex_lt y (nth n a 0%Z, nth n b 0%Z)) (combine a b))))
     (Z.of_nat (length (filter (fun y => lex_lt y (nth m a 0%Z, nth m b 0%Z)) (combine a b))))) as [E|E].
  - apply Nat2Z.inj in E. apply R in E. injection E as -> ->. rewrite !Z.eqb_refl. reflexivity.
  - destruct (Z.eqb_spec (nth n a 0%Z) (nth m a 0%Z)) as [A|A]; [|reflexivity].
    destruct (Z.eqb_spec (nth n b 0%Z) (nth m b 0%Z)) as [B|B]; [|reflexivity].
    exfalso. apply E. rewrite A, B. reflexivity.
Qed.
Lemma group_total ids p x n : is_argsort ids p -> n < length ids ->
  group_expand ids p (group_sum ids p x) n = sum_where (length ids) (fun m => same ids n m) x.
Proof.
  intros HP Hn. rewrite group_sum_spec by exact HP. rewrite (group_expand_spec ids p HP (fun t => sum_rows x (rows_of ids t)) n Hn).
  rewrite sum_rows_of. apply sum_where_ext. intros m _. unfold same. rewrite Z.eqb_sym. reflexivity.
Qed.
Lemma same_refl ids n : same ids n n = true. Proof. apply Z.eqb_refl. Qed.
Lemma sum_single N n (v : R) : n < N -> sumn N (fun m => if Nat.eqb n m then v else 0%R) = v.
Proof.
  induction N as [|N IH]; intros H; [lia|]. cbn [sumn]. destruct (Nat.eqb_spec n N) as [->|E].
  - rewrite (sumn_ext N _ (fun _ => 0%R)); [rewrite sumn_zero; ring|]. intros k Hk. destruct (Nat.eqb_spec N k); [lia|reflexivity].
  - rewrite IH by lia. ring.
Qed.
Lemma sum_where_drop N (c : nat -> bool) (x : nat -> R) n : n < N -> c n = true ->
  (sum_where N c x - x n)%R = sum_where N (fun m => c m && negb (Nat.eqb n m)) x.
Proof.
  intros Hn Hc. rewrite !sum_where_sumn. rewrite <- (sum_single N n (x n) Hn) at 1. rewrite <- sumn_minus.
  apply sumn_ext. intros m _. destruct (Nat.eqb_spec n m) as [->|E].
  - rewrite Hc. cbn. ring.
  - cbn [negb]. rewrite andb_true_r. destruct (c m); ring.
Qed.
Section BLPProofs.
  Variables (market_ids firm_ids : list Z) (ms ps : list nat) (x : nat -> R).
  Hypothesis lengths : length market_ids = length firm_ids.
  Hypothesis sorted : is_argsort market_ids ms.
  Hypothesis paired : is_argsort (interact_ids market_ids firm_ids) ps.
  Let N := length market_ids.
  Lemma blp_other_spec n : n < N -> blp_other market_ids firm_ids ps x n = sum_where N (others market_ids firm_ids n) x.
  Proof.
    intros Hn. unfold blp_other. rewrite group_total by (try exact paired; rewrite interact_length; assumption).
    rewrite interact_length by exact lengths. fold N. rewrite sum_where_drop by (try exact Hn; apply same_refl).
    apply sum_where_ext. intros m Hm. unfold others. rewrite <- (interact_eq market_ids firm_ids n m lengths Hn Hm). reflexivity.
  Qed.
  Lemma blp_rival_spec n : n < N -> blp_rival market_ids firm_ids ms ps x n = sum_where N (rivals market_ids firm_ids n) x.
  Proof.
    intros Hn. unfold blp_rival. rewrite blp_other_spec by exact Hn. rewrite group_total by assumption.
    fold N. rewrite sum_where_drop by (try exact Hn; apply same_refl). rewrite !sum_where_sumn, <- sumn_minus.
    apply sumn_ext. intros m _. unfold others, rivals.
    destruct (same market_ids n m), (same firm_ids n m) eqn:F, (Nat.eqb_spec n m) as [->|]; cbn; try ring.
    rewrite same_refl in F. discriminate.
  Qed.
End BLPProofs.

(* ---------- Differentiation instruments ---------- *)

Lemma rows_nodup ids t : NoDup (rows_of ids t). Proof. apply NoDup_filter, seq_NoDup. Qed.
Lemma market_sum ids n q (g : nat -> R) : n < length ids ->
  let rows := rows_of ids (nth n ids 0%Z) in q < length rows -> nth q rows 0 = n ->
  sumn (length rows) (fun r => if Nat.eqb q r then 0%R else g (nth r rows 0)) =
  sum_where (length ids) (fun m => same ids n m && negb (Nat.eqb n m)) g.
Proof.
  intros Hn rows Hq E.
  rewrite (sumn_ext _ _ (fun r => (fun m => if Nat.eqb n m then 0%R else g m) (nth r rows 0))).
  - rewrite (sumn_rows (fun m => if Nat.eqb n m then 0%R else g m)). unfold rows. rewrite sum_rows_of.
    apply sum_where_ext. intros m _. unfold same. rewrite Z.eqb_sym.
    destruct (Z.eqb (nth n ids 0%Z) (nth m ids 0%Z)); cbn; [|reflexivity]. destruct (Nat.eqb n m); reflexivity.
  - intros r Hr. cbv beta. destruct (Nat.eqb_spec q r) as [<-|D].
    + rewrite E, Nat.eqb_refl. reflexivity.
    + destruct (Nat.eqb_spec n (nth r rows 0)) as [D'|D']; [|reflexivity]. exfalso. apply D.
      apply (proj1 (NoDup_nth rows 0) (rows_nodup ids _)); [exact Hq|exact Hr|congruence].
Qed.

Definition market_pairs (ids : list Z) (f : nat -> nat -> R) (rows : list nat) : R :=
  sumn (length rows) (fun q => sumn (length rows) (fun r => if Nat.eqb q r then 0%R else f (nth q rows 0) (nth r rows 0))).
Lemma market_pairs_rows ids f t : market_pairs ids f (rows_of ids t) =
  sum_rows (fun n => sum_where (length ids) (fun m => same ids n m && negb (Nat.eqb n m)) (f n)) (rows_of ids t).
Proof.
  unfold market_pairs. rewrite <- sumn_rows. apply sumn_ext. intros q Hq. cbv beta.
  set (n := nth q (rows_of ids t) 0). assert (I : In n (rows_of ids t)) by (apply nth_In; exact Hq).
  apply rows_of_in in I. destruct I as [I1 I2]. rewrite <- (market_sum ids n q (f n)); try assumption.
  - rewrite I2. reflexivity.
  - rewrite I2. exact Hq.
  - rewrite I2. reflexivity.
Qed.
Lemma pairs_by_market ids f u : sorted_distinct ids u ->
  fold_right (fun t acc => market_pairs ids f (rows_of ids t) + acc)%R 0%R u = pairs_sum (length ids) ids f.
Proof.
  intros H. set (g := fun n => sum_where (length ids) (fun m => same ids n m && negb (Nat.eqb n m)) (f n)).
  transitivity (sum_rows g (flat_map (rows_of ids) u)).
  - rewrite sum_rows_flat. clear H. induction u as [|t u IH]; cbn [fold_right]; [reflexivity|]. rewrite IH, market_pairs_rows. reflexivity.
  - rewrite (sum_rows_perm g _ _ (rows_partition ids u H)). unfold pairs_sum. fold g.
    rewrite <- (sum_rows_filter (length ids) (fun _ => true) g). f_equal.
    clear. induction (seq 0 (length ids)) as [|a l IH]; cbn; [reflexivity|]. f_equal. exact IH.
Qed.

Section Diff.
  Variables (ids fids : list Z) (K : nat) (X : nat -> nat -> R) (huge : R).
  Let N := length ids.
  Let d k n m : R := difference X k n m.
  Lemma accumulate_fold k u c t s :
    let '(c', t', s') := fold_left (accumulate X k) (map (fun t => (t, rows_of ids t)) u) (c, t, s) in
    (IZR c' = IZR c + fold_right (fun t acc => market_pairs ids (fun _ _ => 1%R) (rows_of ids t) + acc) 0 u)%R /\
    (t' = t + fold_right (fun t acc => market_pairs ids (fun n m => - d k n m) (rows_of ids t) + acc) 0 u)%R /\
    (s' = s + fold_right (fun t acc => market_pairs ids (fun n m => d k n m * d k n m) (rows_of ids t) + acc) 0 u)%R.
  Proof.
    revert c t s. induction u as [|v u IH]; intros c t s; cbn [map fold_left fold_right]; [repeat split; ring|].
    unfold accumulate at 2. cbn [snd].
    match goal with |- context [fold_left _ _ (?a, ?b, ?e)] => specialize (IH a b e) end.
    destruct (fold_left _ _ _) as [[c' t'] s']. destruct IH as [I1 [I2 I3]]. split; [|split].
    - rewrite I1. rewrite plus_IZR, minus_IZR, <- !INR_IZR_INZ, mult_INR. unfold market_pairs.
      set (J := length (rows_of ids v)).
      rewrite (sumn_ext J _ (fun q => (INR J - 1)%R)).
      + rewrite sumn_const. ring.
      + intros q Hq. rewrite (sumn_ext J _ (fun r => (1 - (if Nat.eqb q r then 1 else 0))%R)) by (intros r _; destruct (Nat.eqb q r); ring).
        rewrite sumn_minus, sumn_const, sum_single by exact Hq. ring.
    - rewrite I2, <- Rplus_assoc. do 2 f_equal. unfold market_pairs. apply sumn_ext; intros q _; apply sumn_ext; intros r _.
      unfold diagonal_filled, distance, d, difference. destruct (Nat.eqb q r); cbn; ring.
    - rewrite I3, <- Rplus_assoc. do 2 f_equal. unfold market_pairs. apply sumn_ext; intros q _; apply sumn_ext; intros r _.
      unfold diagonal_filled, distance, d, difference. destruct (Nat.eqb q r); cbn; ring.
  Qed.

  Lemma pairs_sum_ext f g : (forall n m, n < N -> m < N -> f n m = g n m) -> pairs_sum N ids f = pairs_sum N ids g.
  Proof.
    intros H. unfold pairs_sum. apply sum_where_ext. intros n Hn. apply sum_where_ext. intros m Hm. rewrite H by assumption. reflexivity.
  Qed.
  Lemma pairs_sum_lin f g a b : pairs_sum N ids (fun n m => a * f n m + b * g n m)%R = (a * pairs_sum N ids f + b * pairs_sum N ids g)%R.
  Proof.
    unfold pairs_sum. rewrite !sum_where_sumn, <- !sumn_scal, <- sumn_plus. apply sumn_ext. intros n _.
    rewrite !sum_where_sumn, <- !sumn_scal, <- sumn_plus. apply sumn_ext. intros m _.
    destruct (same ids n m && negb (n =? m)); ring.
  Qed.
  Lemma sd_spec k n m : n < N -> m < N -> same ids n m = true -> n <> m -> sd ids X k = Num (pairs_sd N ids (d k)).
  Proof.
    intros Hn Hm S D. unfold sd. rewrite indices_eq. set (u := group_unique _ _).
    assert (HU : sorted_distinct ids u) by (apply group_unique_spec, stable_is_argsort, stable_argsort_correct).
    assert (A := accumulate_fold k u 0%Z 0%R 0%R). destruct (fold_left _ _ _) as [[c t] s]. destruct A as [A1 [A2 A3]].
    rewrite (pairs_by_market ids _ u HU) in A1. rewrite (pairs_by_market ids _ u HU) in A2. rewrite (pairs_by_market ids _ u HU) in A3. fold N in A1, A2, A3. rewrite Rplus_0_l in A1, A2, A3.
    assert (P : (1 <= pairs_sum N ids (fun _ _ => 1))%R).
    { assert (G : forall M j (g : nat -> R), j < M -> (forall i, (0 <= g i)%R) -> (g j <= sumn M g)%R).
      { intros M j g. induction M as [|M IH]; intros Hj G; [lia|]. cbn [sumn]. destruct (Nat.eq_dec j M) as [->|E].
        - assert (0 <= sumn M g)%R by (apply sumn_nonneg; auto). lra.
        - assert (g j <= sumn M g)%R by (apply IH; [lia|auto]). specialize (G M). lra. }
      unfold pairs_sum. rewrite sum_where_sumn. eapply Rle_trans; [|apply (G N n); [exact Hn|]].
      - cbv beta. rewrite sum_where_sumn. eapply Rle_trans; [|apply (G N m); [exact Hm|]].
        + cbv beta. rewrite S. destruct (Nat.eqb_spec n m); [contradiction|]. cbn. lra.
        + intros i. cbv beta. destruct (_ && _); lra.
      - intros i. cbv beta. rewrite sum_where_sumn. apply sumn_nonneg. intros j _. destruct (_ && _); lra. }
    destruct (Z.eqb_spec c 0) as [->|_]; [lra|]. f_equal. unfold pairs_sd. f_equal.
    set (mu := pairs_mean N ids (d k)). unfold pairs_mean.
    set (C := pairs_sum N ids (fun _ _ => 1%R)) in *.
    rewrite (pairs_sum_ext _ (fun n m => 1 * (d k n m * d k n m) + 1 * ((- 2 * mu) * d k n m + (mu * mu) * 1))%R) by (intros; ring).
    rewrite pairs_sum_lin, (pairs_sum_lin (d k) (fun _ _ => 1%R) (- 2 * mu) (mu * mu)). fold C.
    assert (E2 : t = (- (mu * C))%R).
    { rewrite A2. rewrite (pairs_sum_ext _ (fun n m => (-1) * d k n m + 0 * d k n m)%R) by (intros; ring). rewrite pairs_sum_lin.
      unfold mu, pairs_mean. fold C. field. lra. }
    assert (E4 : pairs_sum N ids (d k) = (mu * C)%R) by (unfold mu, pairs_mean; fold C; field; lra).
    rewrite A1, E2, E4, A3. field. lra.
  Qed.

  (** Terms at a position are signed documented functions of rows. *)
  Definition matches (n : nat) (rows : list nat) (q : nat) (s : R) (term f : nat -> nat -> R) : Prop :=
    forall r, r < length rows -> term q r = if Nat.eqb q r then 0%R else (s * f n (nth r rows 0%nat))%R.
  Lemma terms_match v interact n : n < N ->
    let rows := rows_of ids (nth n ids 0%Z) in
    let q := position n rows in
    let which := match v, interact with
                 | Quadratic, false => QuadraticSquares | Quadratic, true => QuadraticProducts
                 | Local, false => LocalIndicators | Local, true => LocalProducts end in
    let s := match which with LocalProducts => (-1)%R | _ => 1%R end in
    Forall2 (matches n rows q s) (instrument_terms ids K X huge v interact rows) (documented_terms N K ids X which).
  Proof.
    intros Hn rows q which s.
    assert (In n rows) as I by (apply rows_of_in; auto). destruct (position_nth n rows I) as [Q1 Q2]. fold q in Q1, Q2.
    assert (SD : forall k r, r < length rows -> q <> r -> sd ids X k = Num (pairs_sd N ids (d k))).
    { intros k r Hr D. assert (Ir : In (nth r rows 0) rows) by (apply nth_In; exact Hr). apply rows_of_in in Ir. destruct Ir as [R1 R2].
      apply (sd_spec k n (nth r rows 0)); try assumption.
      - unfold same. rewrite R2. apply Z.eqb_refl.
      - rewrite <- Q2 at 1. intros E. apply D. apply (proj1 (NoDup_nth rows 0) (rows_nodup ids _)); assumption. }
    assert (DD : forall k r, distance X rows k q r = (- d k n (nth r rows 0%nat))%R).
    { intros k r. unfold distance, d, difference. rewrite Q2. ring. }
    assert (FLAT : forall (F G : nat -> list (nat -> nat -> R)) l, (forall k, Forall2 (matches n rows q s) (F k) (G k)) ->
      Forall2 (matches n rows q s) (flat_map F l) (flat_map G l)).
    { intros F G l H. induction l as [|k l IH]; cbn; [constructor|]. apply Forall2_app; [apply H|exact IH]. }
    unfold instrument_terms, documented_terms. apply FLAT. intros k. clear FLAT.
    assert (MAPS : forall (f g : nat -> nat -> nat -> R) l, (forall k, In k l -> matches n rows q s (f k) (g k)) ->
      Forall2 (matches n rows q s) (map f l) (map g l)).
    { intros f g l. induction l as [|k' l IH]; intros H; cbn; constructor; [apply H; left; reflexivity|apply IH; intros; apply H; right; assumption]. }
    destruct v, interact; cbn [which].
    - apply MAPS. intros k2 _ r Hr. unfold diagonal_filled, is_close. destruct (Nat.eqb_spec q r) as [E|E]; [cbn; ring|].
      rewrite (SD k r Hr E), !DD. cbn [nan_to_num]. unfold near, rltb, s, which. rewrite Rabs_Ropp. fold (d k) (d k2).
      destruct (Rlt_dec _ _); cbn; unfold d; ring.
    - constructor; [|constructor]. intros r Hr. unfold diagonal_filled, is_close. destruct (Nat.eqb_spec q r) as [E|E]; [reflexivity|].
      rewrite (SD k r Hr E), !DD. unfold near, rltb, s, which. rewrite Rabs_Ropp. fold (d k).
      destruct (Rlt_dec _ _); cbn; ring.
    - apply MAPS. intros k2 _ r Hr. unfold diagonal_filled. destruct (Nat.eqb_spec q r) as [E|E]; [cbn; ring|].
      cbn [value]. rewrite !DD. unfold s, which, d. ring.
    - cbn [map]. constructor; [|constructor]. intros r Hr. unfold diagonal_filled. destruct (Nat.eqb_spec q r) as [E|E]; [cbn; ring|].
      cbn [value]. rewrite !DD. unfold s, which, d. ring.
  Qed.

  Lemma differentiation_spec v interact n : length fids = N -> n < N ->
    let which := match v, interact with
                 | Quadratic, false => QuadraticSquares | Quadratic, true => QuadraticProducts
                 | Local, false => LocalIndicators | Local, true => LocalProducts end in
    let s := match which with LocalProducts => (-1)%R | _ => 1%R end in
    build_differentiation_instruments ids fids K X huge v interact n = map (Rmult s) (documented_instruments ids fids K X which n).
  Proof.
    intros HL Hn which s. unfold build_differentiation_instruments.
    destruct (by_market_rows ids (instrument_block ids fids K X huge v interact) (fun _ => []) n Hn) as [E [Q1 Q2]].
    rewrite E. set (rows := rows_of ids (nth n ids 0%Z)) in *. set (q := position n rows) in *.
    assert (M := terms_match v interact n Hn). cbv zeta in M. fold rows q in M. fold which in M. change (match which with LocalProducts => (-1)%R | _ => 1%R end) with s in M.
    unfold instrument_block, documented_instruments. fold N. rewrite map_app, !map_map. f_equal.
    - induction M as [|term f terms fs H M IH]; [reflexivity|]. cbn [map]. f_equal; [|exact IH].
      rewrite (sumn_ext _ _ (fun r => if Nat.eqb q r then 0 else (fun m => indR (same fids n m) * (s * f n m)) (nth r rows 0%nat)))%R.
      + etransitivity; [exact (market_sum ids n q (fun m => indR (same fids n m) * (s * f n m))%R Hn Q1 Q2)|]. fold N.
        rewrite !sum_where_sumn, <- sumn_scal. apply sumn_ext. intros m _. unfold others.
        destruct (same ids n m), (same fids n m), (n =? m); cbn; ring.
      + intros r Hr. rewrite (H r Hr). unfold ownership. rewrite Q2. unfold same. destruct (Nat.eqb q r); [ring|reflexivity].
    - induction M as [|term f terms fs H M IH]; [reflexivity|]. cbn [map]. f_equal; [|exact IH].
      rewrite (sumn_ext _ _ (fun r => if Nat.eqb q r then 0 else (fun m => (1 - indR (same fids n m)) * (s * f n m)) (nth r rows 0%nat)))%R.
      + etransitivity; [exact (market_sum ids n q (fun m => (1 - indR (same fids n m)) * (s * f n m))%R Hn Q1 Q2)|]. fold N.
        rewrite !sum_where_sumn, <- sumn_scal. apply sumn_ext. intros m _. unfold rivals.
        destruct (same ids n m), (same fids n m) eqn:F, (Nat.eqb_spec n m) as [->|]; cbn; try ring.
        rewrite same_refl in F. discriminate.
      + intros r Hr. rewrite (H r Hr). unfold ownership. rewrite Q2. unfold same. destruct (Nat.eqb q r); [ring|reflexivity].
  Qed.
End Diff.

(* ---------- Ownership ---------- *)

Definition kappa_value (fids : list Z) (kappa : kappa_specification) (n m : nat) : R :=
  match kappa with
  | Default => if same fids n m then 1%R else 0%R
  | Callable kappa => kappa (nth n fids 0%Z) (nth m fids 0%Z)
  | Monopoly => 1%R
  | Single => if Nat.eqb n m then 1%R else 0%R
  end.
Lemma ownership_spec ids fids kappa n c : n < length ids ->
  let rows := rows_of ids (nth n ids 0%Z) in
  build_ownership ids fids kappa n c = if c <? length rows then Num (kappa_value fids kappa n (nth c rows 0)) else NaN.
Proof.
  intros Hn rows. unfold build_ownership.
  destruct (by_market_rows ids (fun rows q c => if c <? length rows then Num (kappa_block fids kappa rows q c) else NaN) (fun _ _ => NaN) n Hn)
    as [E [Q1 Q2]]. fold rows in E, Q1, Q2. rewrite E. destruct (Nat.ltb_spec c (length rows)) as [L|L]; [|reflexivity].
  f_equal. unfold kappa_block, kappa_value. rewrite Q2. destruct kappa; try reflexivity.
  destruct (Nat.eqb_spec (position n rows) c) as [A|A], (Nat.eqb_spec n (nth c rows 0)) as [B|B]; try reflexivity; exfalso.
  - apply B. rewrite <- A, Q2. reflexivity.
  - apply A. apply (proj1 (NoDup_nth rows 0) (rows_nodup ids _)); [exact Q1|exact L|congruence].
Qed.
Lemma max_J_spec ids n : n < length ids -> length (rows_of ids (nth n ids 0%Z)) <= max_J ids.
Proof.
  intros Hn. unfold max_J. rewrite indices_eq.
  assert (I : In (nth n ids 0%Z) (group_unique ids (stable_argsort ids))).
  { apply (group_unique_spec ids _ (stable_is_argsort _ _ (stable_argsort_correct ids))). apply nth_In. exact Hn. }
  induction (group_unique ids (stable_argsort ids)) as [|t u IH]; [destruct I|]. cbn [map fold_right snd].
  destruct I as [->|I]; [lia|]. specialize (IH I). lia.
Qed.

(* ---------- Reordering rows ---------- *)

Definition reordered {A} (p : list nat) (x : nat -> A) (n : nat) : A := x (nth n p 0).
Definition reordered_ids (p : list nat) (ids : list Z) : list Z := map (fun j => nth j ids 0%Z) p.
Lemma reordered_same p ids n m : n < length p -> m < length p -> same (reordered_ids p ids) n m = same ids (nth n p 0) (nth m p 0).
Proof.
  intros Hn Hm. unfold same, reordered_ids. set (g := fun j => nth j ids 0%Z).
  rewrite !(nth_indep _ 0%Z (g 0)) by (rewrite map_length; assumption). rewrite !map_nth. reflexivity.
Qed.
Lemma sum_where_reordered p (c c' : nat -> bool) x : Permutation p (seq 0 (length p)) ->
  (forall m, m < length p -> c' m = c (nth m p 0)) ->
  sum_where (length p) c' (reordered p x) = sum_where (length p) c x.
Proof.
  intros P H. set (g := fun m => if c m then x m else 0%R).
  transitivity (sum_rows g (seq 0 (length p))).
  - rewrite <- (sum_rows_perm g _ _ P), <- sumn_rows, sum_where_sumn. apply sumn_ext. intros m Hm. rewrite H by exact Hm. reflexivity.
  - rewrite sum_where_sumn. rewrite <- sumn_rows, seq_length. apply sumn_ext. intros m Hm. rewrite seq_nth by exact Hm. reflexivity.
Qed.
Lemma perm_nth_inj p n m : Permutation p (seq 0 (length p)) -> n < length p -> m < length p -> (nth n p 0 =? nth m p 0) = (n =? m).
Proof.
  intros P Hn Hm. assert (ND : NoDup p) by (apply (Permutation_NoDup (Permutation_sym P)), seq_NoDup).
  destruct (Nat.eqb_spec n m) as [->|D]; [apply Nat.eqb_refl|]. apply Nat.eqb_neq. intros E. apply D.
  apply (proj1 (NoDup_nth p 0) ND); assumption.
Qed.
Lemma blp_reordered p ids fids ms ps ms' ps' x n : Permutation p (seq 0 (length p)) -> length p = length ids -> length fids = length ids ->
  is_argsort ids ms -> is_argsort (interact_ids ids fids) ps ->
  is_argsort (reordered_ids p ids) ms' -> is_argsort (interact_ids (reordered_ids p ids) (reordered_ids p fids)) ps' ->
  n < length ids ->
  blp_other (reordered_ids p ids) (reordered_ids p fids) ps' (reordered p x) n = reordered p (blp_other ids fids ps x) n /\
  blp_rival (reordered_ids p ids) (reordered_ids p fids) ms' ps' (reordered p x) n = reordered p (blp_rival ids fids ms ps x) n.
Proof.
  intros P L F A1 A2 A3 A4 Hn.
  assert (LR : forall l, length (reordered_ids p l) = length p) by (intros; unfold reordered_ids; apply map_length).
  assert (Hp : nth n p 0 < length ids).
  { assert (I : In (nth n p 0) p) by (apply nth_In; lia). apply (Permutation_in _ P), in_seq in I. lia. }
  unfold reordered at 2 4. rewrite (blp_other_spec ids fids ps x), (blp_rival_spec ids fids ms ps x) by (auto; lia).
  rewrite blp_other_spec, blp_rival_spec by (auto; rewrite ?LR; lia). rewrite LR, <- L.
  split; apply sum_where_reordered; try exact P; intros m Hm.
  - unfold others. rewrite !reordered_same, perm_nth_inj by (auto; lia). reflexivity.
  - unfold rivals. rewrite !reordered_same by (auto; lia). reflexivity.
Qed.
