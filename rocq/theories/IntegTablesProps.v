(** Theorems about tables of univariate rules: C74. *)
From Coq Require Import Reals Lra Lia ZArith List Bool Arith Sorted.
From Verif Require Import Base IntegModel IntegTables IntegSpec IntegProofs.
Import ListNotations.
Local Open Scope R_scope.

Fixpoint zmoment (x w : list Z) (k : nat) : Z :=
  match x, w with
  | a :: x, b :: w => ((if Z.eqb a 0 then b * a ^ Z.of_nat k else b * ((- a) ^ Z.of_nat k + a ^ Z.of_nat k)) + zmoment x w k)%Z
  | _, _ => 0%Z
  end.
Fixpoint znormal (k : nat) : Z :=
  match k with
  | O => 1
  | S O => 0
  | S (S k) => Z.of_nat (k + 1) * znormal k
  end%Z.
Lemma ten_nonzero n : 10 ^ n <> 0.
Proof. apply pow_nonzero. lra. Qed.
Lemma znormal_R k : IZR (znormal k) = normal_moment k.
Proof.
  assert (G : IZR (znormal k) = normal_moment k /\ IZR (znormal (S k)) = normal_moment (S k)).
  { induction k as [|k [IH1 IH2]]; [split; reflexivity|]. split; [exact IH2|].
    change (znormal (S (S k))) with (Z.of_nat (k + 1) * znormal k)%Z. change (normal_moment (S (S k))) with (INR (k + 1) * normal_moment k).
    rewrite mult_IZR, IH1, <- INR_IZR_INZ. reflexivity. }
  exact (proj1 G).
Qed.
Lemma scaled_zero a : (IZR a / 10 ^ 17 = 0) <-> a = 0%Z.
Proof.
  assert (P := ten_nonzero 17). split.
  - intros H. apply eq_IZR. replace (IZR a) with (IZR a / 10 ^ 17 * 10 ^ 17) by (field; exact P). rewrite H. ring.
  - intros ->. unfold Rdiv. ring.
Qed.
Lemma zpow a k : IZR (a ^ Z.of_nat k) = IZR a ^ k.
Proof. rewrite <- pow_IZR. reflexivity. Qed.
Lemma zmoment_R x w k :
  univariate (whole_line (to_nodes x) (to_weights w)) (fun a => a ^ k) = IZR (zmoment x w k) / (10 ^ 40 * (10 ^ 17) ^ k).
Proof.
  unfold univariate, whole_line. rewrite suml_flat_map. assert (P1 := ten_nonzero 40). assert (P2 := ten_nonzero 17).
  assert (P3 : (10 ^ 17) ^ k <> 0) by (apply pow_nonzero; exact P2).
  set (u := 10 ^ 40) in *. revert w. induction x as [|a x IH]; intros [|b w]; cbn [to_nodes to_weights map combine suml zmoment]; try (unfold Rdiv; ring).
  unfold to_nodes, to_weights in IH. rewrite IH. cbn [fst snd]. rewrite plus_IZR.
  assert (Q : forall c, (c / 10 ^ 17) ^ k = c ^ k / (10 ^ 17) ^ k).
  { intros c. unfold Rdiv. rewrite Rpow_mult_distr, pow_inv. reflexivity. }
  destruct (Req_EM_T (IZR a / 10 ^ 17) 0) as [E|E], (Z.eqb_spec a 0) as [Z|Z]; try (apply scaled_zero in E; contradiction); try (exfalso; apply E, scaled_zero; exact Z).
  - cbn [suml fst snd]. rewrite Q, mult_IZR, zpow. fold u. set (v := (10 ^ 17) ^ k) in *. field. split; assumption.
  - cbn [suml fst snd]. replace (- (IZR a / 10 ^ 17)) with ((- IZR a) / 10 ^ 17) by (unfold Rdiv; ring). rewrite !Q, mult_IZR, plus_IZR, !zpow, opp_IZR.
    fold u. set (v := (10 ^ 17) ^ k) in *. field. split; assumption.
Qed.
Definition tables_Z (nested : bool) : list (list Z * list Z) :=
  if nested then combine nested_nodes nested_weights else combine plain_nodes plain_weights.
Lemma tabulated_Z nested level x w : get_quadrature_data (tabulated nested) level = Some (x, w) ->
  exists zx zw, nth_error (tables_Z nested) (level - 1) = Some (zx, zw) /\ x = to_nodes zx /\ w = to_weights zw.
Proof.
  unfold get_quadrature_data, tabulated, tables_Z.
  assert (G : forall n a b, length a = length b -> forall x w,
    match nth_error (map to_nodes a) n, nth_error (map to_weights b) n with Some x, Some w => Some (x, w) | _, _ => None end = Some (x, w) ->
    exists zx zw, nth_error (combine a b) n = Some (zx, zw) /\ x = to_nodes zx /\ w = to_weights zw).
  { induction n as [|n IH]; intros [|p a] [|q b] L x' w' H; cbn in *; try discriminate.
    - injection H as <- <-. exists p, q. tauto.
    - apply IH; [lia|exact H]. }
  destruct nested; cbn [node_data weight_data]; apply G; reflexivity.
Qed.
Lemma tabulated_some nested level : (1 <= level <= 25)%nat -> exists x w, get_quadrature_data (tabulated nested) level = Some (x, w).
Proof.
  intros L. do 25 (destruct level as [|level]; [try lia; destruct nested; do 2 eexists; reflexivity|]).
  destruct level; [destruct nested; do 2 eexists; reflexivity|lia].
Qed.
Lemma tabulated_none nested level : (25 < level)%nat -> get_quadrature_data (tabulated nested) level = None.
Proof.
  intros L. unfold get_quadrature_data, tabulated. destruct nested; cbn [node_data weight_data];
  match goal with |- match nth_error ?l ?n with _ => _ end = _ => replace (nth_error l n) with (@None (list R)); [reflexivity|] end;
  symmetry; apply nth_error_None; rewrite map_length;
  match goal with |- (length ?l <= _)%nat => change (length l) with 25%nat end; lia.
Qed.
(** Checks of a list of tables, by level. *)
Definition check_tables (check : nat -> list Z -> list Z -> bool) (nested : bool) : bool :=
  forallb (fun p => check (fst p) (fst (snd p)) (snd (snd p))) (combine (seq 1 25) (tables_Z nested)).
Lemma check_all check nested level x w : check_tables check nested = true -> (1 <= level <= 25)%nat ->
  get_quadrature_data (tabulated nested) level = Some (x, w) ->
  exists zx zw, x = to_nodes zx /\ w = to_weights zw /\ check level zx zw = true.
Proof.
  intros H L Q. destruct (tabulated_Z nested level x w Q) as [zx [zw [E [-> ->]]]]. exists zx, zw. split; [reflexivity|]. split; [reflexivity|].
  unfold check_tables in H. rewrite forallb_forall in H. apply (H (level, (zx, zw))).
  assert (G : forall (l : list (list Z * list Z)) s k n, nth_error l k = Some (zx, zw) -> (k < n)%nat -> In ((s + k)%nat, (zx, zw)) (combine (seq s n) l)).
  { induction l as [|p l IH]; intros s k n Hk Hn; [destruct k; discriminate|]. destruct n as [|n]; [lia|]. cbn [seq combine]. destruct k as [|k].
    - injection Hk as ->. left. rewrite Nat.add_0_r. reflexivity.
    - right. replace (s + S k)%nat with (S s + k)%nat by lia. apply IH; [exact Hk|lia]. }
  assert (X := G (tables_Z nested) 1%nat (level - 1)%nat 25%nat E ltac:(lia)). replace (1 + (level - 1))%nat with level in X by lia. exact X.
Qed.
(** Even moments, one after the other. *)
Definition even_terms (x w : list Z) (j : nat) : list Z :=
  map (fun p => (if Z.eqb (fst p) 0 then snd p * (fst p ^ 2) ^ Z.of_nat j else 2 * snd p * (fst p ^ 2) ^ Z.of_nat j))%Z (combine x w).
Definition zsum (l : list Z) : Z := fold_right Z.add 0%Z l.
(** Lower and upper bounds of the terms as multiples of 2^-120, so that checking them needs only short numbers: whether
    the weight is negative, bounds of the size of the term, and bounds of the square of the
    node as multiples of 2^-60. *)
Record item := Item { neg : bool; lo : Z; hi : Z; sq_lo : Z; sq_hi : Z }.
Definition unit60 : Z := 1152921504606846976.
Definition unit120 : Z := 1329227995784915872903807060280344576.
Definition start (p : Z * Z) : item :=
  let q := (fst p ^ 2 * unit60 / 10000000000000000000000000000000000)%Z in
  let m := ((if Z.eqb (fst p) 0 then 1 else 2) * Z.abs (snd p) * unit120 / 10000000000000000000000000000000000000000)%Z in
  Item (Z.ltb (snd p) 0) m (m + 1) q (q + 1).
Definition next (i : item) : item :=
  Item (neg i) (Z.shiftr (sq_lo i * lo i) 60) (Z.shiftr (sq_hi i * hi i) 60 + 1) (sq_lo i) (sq_hi i).
Definition lower (i : item) : Z := if neg i then (- hi i)%Z else lo i.
Definition upper (i : item) : Z := if neg i then (- lo i)%Z else hi i.
Fixpoint even_ok (n j : nat) (items : list item) (D : Z) : bool :=
  match n with
  | O => true
  | S n => Z.leb ((D - zsum (map lower items)) * 10000000000000) D && Z.leb ((zsum (map upper items) - D) * 10000000000000) D &&
           even_ok n (S j) (map next items) (Z.of_nat (2 * j + 1) * D)
  end.
Definition even_term (p : Z * Z) (j : nat) : Z :=
  (if Z.eqb (fst p) 0 then snd p * (fst p ^ 2) ^ Z.of_nat j else 2 * snd p * (fst p ^ 2) ^ Z.of_nat j)%Z.
Definition unit_at (j : nat) : Z := (10 ^ 40 * (10 ^ 34) ^ Z.of_nat j)%Z.
Definition bounded (j : nat) (p : Z * Z) (i : item) : Prop :=
  (neg i = Z.ltb (snd p) 0 /\ 0 <= lo i /\ 0 <= sq_lo i /\
   sq_lo i * 10 ^ 34 <= fst p ^ 2 * unit60 <= sq_hi i * 10 ^ 34 /\
   lo i * unit_at j <= Z.abs (even_term p j) * unit120 <= hi i * unit_at j)%Z.
Lemma div_bounds a b : (0 < b -> a / b * b <= a <= (a / b + 1) * b)%Z.
Proof. intros H. assert (E := Z.div_mod a b ltac:(lia)). assert (M := Z.mod_pos_bound a b H). nia. Qed.
Lemma unit_pos j : (0 < unit_at j)%Z.
Proof. unfold unit_at. apply Z.mul_pos_pos; [reflexivity|]. apply Z.pow_pos_nonneg; [reflexivity|lia]. Qed.
Lemma unit_next j : (unit_at (S j) = unit_at j * 10 ^ 34)%Z.
Proof. unfold unit_at. rewrite Nat2Z.inj_succ, Z.pow_succ_r by lia. ring. Qed.
Lemma even_term_next p j : even_term p (S j) = (even_term p j * fst p ^ 2)%Z.
Proof. unfold even_term. rewrite Nat2Z.inj_succ, Z.pow_succ_r by lia. destruct (Z.eqb (fst p) 0); ring. Qed.
Lemma start_bounded p : bounded 0 p (start p).
Proof.
  unfold bounded, start. cbn [neg lo hi sq_lo sq_hi].
  change 10000000000000000000000000000000000%Z with (10 ^ 34)%Z. change 10000000000000000000000000000000000000000%Z with (10 ^ 40)%Z.
  split; [reflexivity|]. assert (U : (0 < unit60)%Z) by reflexivity. assert (U' : (0 < unit120)%Z) by reflexivity.
  assert (E : (Z.abs (even_term p 0) = (if Z.eqb (fst p) 0 then 1 else 2) * Z.abs (snd p))%Z).
  { unfold even_term. change (Z.of_nat 0) with 0%Z. rewrite Z.pow_0_r. destruct (Z.eqb (fst p) 0); lia. }
  assert (N1 : (0 <= (if Z.eqb (fst p) 0 then 1 else 2) * Z.abs (snd p) * unit120)%Z) by (destruct (Z.eqb (fst p) 0); lia).
  assert (N2 : (0 <= fst p ^ 2 * unit60)%Z) by (apply Z.mul_nonneg_nonneg; [apply Z.pow_even_nonneg; exists 1%Z; reflexivity|lia]).
  split; [apply Z.div_pos; [exact N1|reflexivity]|]. split; [apply Z.div_pos; [exact N2|reflexivity]|].
  split; [apply div_bounds; reflexivity|]. rewrite E. unfold unit_at. change (Z.of_nat 0) with 0%Z. rewrite Z.pow_0_r, Z.mul_1_r. apply div_bounds. reflexivity.
Qed.
Lemma next_bounded j p i : bounded j p i -> bounded (S j) p (next i).
Proof.
  intros (A & B & C & D & E). unfold bounded, next. cbn [neg lo hi sq_lo sq_hi]. split; [exact A|].
  change unit60 with (2 ^ 60)%Z in *. rewrite !Z.shiftr_div_pow2 by lia.
  assert (U : (0 < 2 ^ 60)%Z) by reflexivity. split; [apply Z.div_pos; [nia|exact U]|]. split; [exact C|]. split; [exact D|].
  rewrite even_term_next, Z.abs_mul, unit_next. assert (SQ : (0 <= fst p ^ 2)%Z) by (apply Z.pow_even_nonneg; exists 1%Z; reflexivity).
  rewrite (Z.abs_eq (fst p ^ 2)) by exact SQ. assert (P := unit_pos j). assert (T : (0 < 10 ^ 34)%Z) by reflexivity.
  assert (L := div_bounds (sq_lo i * lo i) (2 ^ 60) U). assert (H := div_bounds (sq_hi i * hi i) (2 ^ 60) U).
  assert (V := Z.abs_nonneg (even_term p j)).
  set (t := Z.abs (even_term p j)) in *. set (x := (fst p ^ 2)%Z) in *. set (l := (sq_lo i * lo i / 2 ^ 60)%Z) in *.
  set (h := (sq_hi i * hi i / 2 ^ 60)%Z) in *. set (b := (2 ^ 60)%Z) in *. set (r := (10 ^ 34)%Z) in *. set (u := unit_at j) in *.
  assert (G : (0 < unit120)%Z) by reflexivity. set (g := unit120) in *. clearbody t x l h b r u g. destruct D as [D1 D2], E as [E1 E2].
  assert (X1 : ((sq_lo i * lo i) * (u * r) <= (t * g) * (x * b))%Z).
  { replace (sq_lo i * lo i * (u * r))%Z with ((lo i * u) * (sq_lo i * r))%Z by ring. apply Z.mul_le_mono_nonneg; nia. }
  assert (X2 : ((t * g) * (x * b) <= (sq_hi i * hi i) * (u * r))%Z).
  { replace (sq_hi i * hi i * (u * r))%Z with ((hi i * u) * (sq_hi i * r))%Z by ring. apply Z.mul_le_mono_nonneg; nia. }
  assert (UR : (0 < u * r)%Z) by nia. split; apply (Zmult_le_reg_r _ _ b); try lia.
  - transitivity ((sq_lo i * lo i) * (u * r))%Z; [|lia]. replace (l * (u * r) * b)%Z with ((l * b) * (u * r))%Z by ring. apply Z.mul_le_mono_nonneg_r; lia.
  - transitivity ((sq_hi i * hi i) * (u * r))%Z; [lia|]. replace ((h + 1) * (u * r) * b)%Z with (((h + 1) * b) * (u * r))%Z by ring. apply Z.mul_le_mono_nonneg_r; lia.
Qed.
Lemma even_term_sign p j : Z.abs (even_term p j) = (if Z.ltb (snd p) 0 then - even_term p j else even_term p j)%Z.
Proof.
  unfold even_term. assert (N : (0 <= (fst p ^ 2) ^ Z.of_nat j)%Z) by (apply Z.pow_nonneg, Z.pow_even_nonneg; exists 1%Z; reflexivity).
  destruct (Z.ltb_spec (snd p) 0), (Z.eqb (fst p) 0); nia.
Qed.
Lemma sums_bounded j l items : Forall2 (bounded j) l items ->
  (zsum (map lower items) * unit_at j <= zsum (map (fun p => even_term p j) l) * unit120 <= zsum (map upper items) * unit_at j)%Z.
Proof.
  induction 1 as [|p i l items (A & B & C & D & E) H IH]; cbn [map zsum fold_right]; [lia|]. fold (zsum (map lower items)) (zsum (map upper items)) (zsum (map (fun p => even_term p j) l)).
  rewrite even_term_sign in E. unfold lower at 1, upper at 1. rewrite A. destruct (Z.ltb (snd p) 0); nia.
Qed.
Definition scale (j : nat) : Z := (znormal (2 * j) * unit_at j)%Z.
Lemma even_moment x w j : zsum (even_terms x w j) = zmoment x w (2 * j).
Proof.
  unfold even_terms. revert w. induction x as [|a x IH]; intros [|b w]; cbn [combine map zsum fold_right zmoment]; try reflexivity.
  unfold zsum in IH. rewrite IH. f_equal. cbn [fst snd]. rewrite <- Z.pow_mul_r by lia. replace (2 * Z.of_nat j)%Z with (Z.of_nat (2 * j)) by lia.
  destruct (Z.eqb a 0); [reflexivity|]. replace ((- a) ^ Z.of_nat (2 * j))%Z with (a ^ Z.of_nat (2 * j))%Z; [ring|].
  symmetry. apply Z.pow_opp_even. exists (Z.of_nat j). lia.
Qed.
Lemma even_ok_all x w n j items : Forall2 (bounded j) (combine x w) items -> even_ok n j items (znormal (2 * j) * unit120) = true ->
  forall i, (i < n)%nat -> (Z.abs (zmoment x w (2 * (j + i)) - scale (j + i)) * 10 ^ 13 <= scale (j + i))%Z.
Proof.
  revert j items. induction n as [|n IH]; intros j items F H i Hi; [lia|]. cbn [even_ok] in H.
  apply andb_true_iff in H. destruct H as [H H2]. apply andb_true_iff in H. destruct H as [H0 H1]. destruct i as [|i].
  - rewrite Nat.add_0_r, <- even_moment. apply Z.leb_le in H0, H1. destruct (sums_bounded j _ _ F) as [B1 B2].
    unfold scale, even_terms. change (map _ (combine x w)) with (map (fun p => even_term p j) (combine x w)).
    change 10000000000000%Z with (10 ^ 13)%Z in *. assert (P := unit_pos j). assert (U : (0 < unit120)%Z) by reflexivity. assert (T : (0 < 10 ^ 13)%Z) by reflexivity.
    set (m := znormal (2 * j)) in *. set (t := zsum (map (fun p => even_term p j) (combine x w))) in *. set (a := zsum (map lower items)) in *.
    set (b := zsum (map upper items)) in *. set (u := unit_at j) in *. set (r := (10 ^ 13)%Z) in *. set (v := unit120) in *. clearbody m t a b u r v.
    assert (G1 : ((m * u - t) * r <= m * u)%Z).
    { apply (Zmult_le_reg_r _ _ v); [lia|]. transitivity ((m * v - a) * r * u)%Z; [|nia]. nia. }
    assert (G2 : ((t - m * u) * r <= m * u)%Z).
    { apply (Zmult_le_reg_r _ _ v); [lia|]. transitivity ((b - m * v) * r * u)%Z; [|nia]. nia. }
    destruct (Z.abs_spec (t - m * u)) as [[_ ->]|[_ ->]]; lia.
  - replace (j + S i)%nat with (S j + i)%nat by lia. apply (IH (S j) (map next items)); [|rewrite <- H2; f_equal|lia].
    + clear - F. induction F; cbn [map]; constructor; [apply next_bounded|]; assumption.
    + replace (2 * S j)%nat with (S (S (2 * j))) by lia. change (znormal (S (S (2 * j)))) with (Z.of_nat (2 * j + 1) * znormal (2 * j))%Z. ring.
Qed.
Definition accurate (level : nat) (x w : list Z) : bool :=
  Z.eqb (Z.of_nat (length x)) (Z.of_nat (length w)) && even_ok level 0 (map start (combine x w)) unit120.
Lemma accurate_all x w level : accurate level x w = true ->
  forall i, (i < level)%nat -> (Z.abs (zmoment x w (2 * i) - scale i) * 10 ^ 13 <= scale i)%Z.
Proof.
  unfold accurate. intros H i Hi. apply andb_true_iff in H. destruct H as [_ H].
  apply (even_ok_all x w level 0 (map start (combine x w))); [|exact H|exact Hi].
  clear. induction (combine x w); cbn [map]; constructor; [apply start_bounded|assumption].
Qed.
Definition close_to_one (level : nat) (x w : list Z) : bool :=
  Z.eqb (Z.of_nat (length x)) (Z.of_nat (length w)) && Z.leb (Z.abs (zmoment x w 0 - 10 ^ 40) * 10 ^ 15) (10 ^ 40).
Definition increasing (middle : bool) (x : list Z) : bool :=
  (if middle then match x with a :: _ => Z.eqb a 0 | [] => false end else match x with a :: _ => Z.ltb 0 a | [] => false end) &&
  forallb (fun p => Z.ltb (fst p) (snd p)) (combine x (tl x)).

Lemma odd_zero x w f : (forall a, f (- a) = - f a) -> univariate (whole_line x w) f = 0.
Proof.
  intros O. unfold univariate, whole_line. rewrite suml_flat_map. apply suml_zero. intros p _.
  destruct (Req_EM_T (fst p) 0) as [E|E]; cbn [suml fst snd].
  - assert (Z := O 0). rewrite Ropp_0 in Z. rewrite E. assert (f 0 = 0) by lra. rewrite H. ring.
  - rewrite O. ring.
Qed.

(** Each rule has the moments of the standard normal distribution up to twice its level, with relative errors below
    10^-13. *)
Theorem C74_moments nested level k : (1 <= level <= 25)%nat -> (k < 2 * level)%nat ->
  exists x w, get_quadrature_data (tabulated nested) level = Some (x, w) /\
    Rabs (univariate (whole_line x w) (fun a => a ^ k) - normal_moment k) <= normal_moment k / 10 ^ 13.
Proof.
  intros L K. destruct (tabulated_some nested level L) as [x [w Q]]. exists x, w. split; [exact Q|].
  assert (T : check_tables accurate nested = true) by (destruct nested; vm_compute; reflexivity).
  destruct (check_all accurate nested level x w T L Q) as [zx [zw [-> [-> C]]]].
  destruct (Nat.even k) eqn:Ev.
  2: { rewrite <- Nat.negb_odd in Ev. apply negb_false_iff, Nat.odd_spec in Ev. destruct Ev as [j ->].
       replace (normal_moment (2 * j + 1)) with 0.
       - rewrite (odd_zero (to_nodes zx) (to_weights zw) (fun a => a ^ (2 * j + 1))).
         + rewrite Rminus_0_r, Rabs_R0. unfold Rdiv. rewrite Rmult_0_l. lra.
         + intros a. rewrite !pow_add, !pow_mult. replace ((- a) ^ 2) with (a ^ 2) by ring. ring.
       - clear. induction j as [|j IH]; [reflexivity|]. replace (2 * S j + 1)%nat with (S (S (2 * j + 1))) by lia. cbn [normal_moment]. rewrite <- IH. ring. }
  apply Nat.even_spec in Ev. destruct Ev as [j ->].
  assert (Ck := accurate_all zx zw level C j ltac:(lia)). unfold scale, unit_at in Ck.
  replace ((10 ^ 34) ^ Z.of_nat j)%Z with ((10 ^ 17) ^ Z.of_nat (2 * j))%Z in Ck.
  2: { rewrite Nat2Z.inj_mul, Z.pow_mul_r by lia. f_equal. }
  set (k := (2 * j)%nat) in *. clearbody k.
  rewrite zmoment_R, <- znormal_R. apply IZR_le in Ck. rewrite !mult_IZR, abs_IZR, minus_IZR, !mult_IZR in Ck.
  rewrite (zpow (10 ^ 17) k) in Ck. change (10 ^ 40)%Z with (10 ^ Z.of_nat 40)%Z in Ck. change (10 ^ 17)%Z with (10 ^ Z.of_nat 17)%Z in Ck.
  change (10 ^ 13)%Z with (10 ^ Z.of_nat 13)%Z in Ck. rewrite !zpow in Ck.
  set (S := 10 ^ 40 * (10 ^ 17) ^ k) in *. set (E := 10 ^ 13) in *.
  assert (PS : 0 < S) by (unfold S; apply Rmult_lt_0_compat; repeat apply pow_lt; lra).
  assert (PE : 0 < E) by (unfold E; apply pow_lt; lra). clearbody S E.
  apply (Rmult_le_reg_r (S * E)); [nra|].
  replace (IZR (znormal k) / E * (S * E)) with (IZR (znormal k) * S) by (field; lra).
  eapply Rle_trans; [|exact Ck]. right.
  replace (S * E) with (S * E) by ring. rewrite <- Rmult_assoc. f_equal.
  rewrite <- (Rabs_pos_eq S) at 2 by lra. rewrite <- Rabs_mult. f_equal. field. lra.
Qed.
Print Assumptions C74_moments.

(** Nodes increase, and the first is zero if the level is odd or the rule is nested; other levels are rejected. *)
Theorem C74_structure nested : (forall level, (25 < level)%nat -> get_quadrature_data (tabulated nested) level = None) /\
  forall level x w, (1 <= level <= 25)%nat -> get_quadrature_data (tabulated nested) level = Some (x, w) ->
    length x = length w /\ StronglySorted Rlt x /\
    (if nested || Nat.odd level then exists y, x = 0 :: y /\ Forall (Rlt 0) y else Forall (Rlt 0) x) /\
    (nested = false -> Forall (Rlt 0) w).
Proof.
  split; [apply tabulated_none|]. intros level x w L Q.
  set (check := fun level (x w : list Z) => close_to_one level x w && increasing (nested || Nat.odd level) x && (nested || forallb (Z.ltb 0) w)).
  assert (T : check_tables check nested = true) by (unfold check; destruct nested; vm_compute; reflexivity).
  destruct (check_all check nested level x w T L Q) as [zx [zw [-> [-> C]]]]. unfold check in C.
  apply andb_true_iff in C. destruct C as [C C3]. apply andb_true_iff in C. destruct C as [C1 C2].
  apply andb_true_iff in C1. destruct C1 as [C1 _]. apply Z.eqb_eq in C1.
  assert (P17 : 0 < / 10 ^ 17) by (apply Rinv_0_lt_compat, pow_lt; lra). assert (P40 : 0 < / 10 ^ 40) by (apply Rinv_0_lt_compat, pow_lt; lra).
  assert (Mono : forall a b, (a < b)%Z -> IZR a / 10 ^ 17 < IZR b / 10 ^ 17).
  { intros a b H. apply IZR_lt in H. unfold Rdiv. apply Rmult_lt_compat_r; assumption. }
  unfold increasing in C2. apply andb_true_iff in C2. destruct C2 as [C2 C4].
  assert (S : StronglySorted Z.lt zx).
  { apply Sorted_StronglySorted; [intros a b c; lia|]. clear - C4. induction zx as [|a zx IH]; [constructor|].
    constructor; [apply IH; destruct zx; [reflexivity|]; cbn in C4; apply andb_true_iff in C4; exact (proj2 C4)|].
    destruct zx; constructor. cbn in C4. apply andb_true_iff in C4. apply Z.ltb_lt. exact (proj1 C4). }
  assert (SR : StronglySorted Rlt (to_nodes zx)).
  { clear - S Mono. induction S as [|a l _ IH F]; cbn; constructor; [exact IH|]. apply Forall_map. eapply Forall_impl; [|exact F]. intros b. apply Mono. }
  split; [unfold to_nodes, to_weights; rewrite !map_length; lia|]. split; [exact SR|]. split.
  - destruct zx as [|a zx]; [destruct (nested || Nat.odd level); discriminate|]. assert (F : Forall (Rlt (IZR a / 10 ^ 17)) (to_nodes zx)) by (exact (proj2 (StronglySorted_inv SR))).
    change (to_nodes (a :: zx)) with (IZR a / 10 ^ 17 :: to_nodes zx) in *.
    destruct (nested || Nat.odd level).
    + apply Z.eqb_eq in C2. subst a. replace (0 / 10 ^ 17) with 0 in * by (unfold Rdiv; ring). eexists. split; [reflexivity|exact F].
    + apply Z.ltb_lt in C2. apply Mono in C2. replace (0 / 10 ^ 17) with 0 in * by (unfold Rdiv; ring). constructor; [exact C2|].
      eapply Forall_impl; [|exact F]. intros b Hb. lra.
  - intros ->. cbn [orb] in C3. rewrite forallb_forall in C3. unfold to_weights. apply Forall_map, Forall_forall. intros b Hb.
    apply C3, Z.ltb_lt, IZR_lt in Hb. unfold Rdiv. apply Rmult_lt_0_compat; [exact Hb|exact P40].
Qed.
Print Assumptions C74_structure.

(** Weights of product rules sum to one up to (1 + 10^-15)^d - 1. *)
Theorem C74_product_weights nested level d nodes weights : (1 <= level <= 25)%nat -> (1 <= d)%nat ->
  product_rule (tabulated nested) d level nested = Some (nodes, weights) ->
  Rabs (suml (fun v => v) weights - 1) <= (1 + / 10 ^ 15) ^ d - 1.
Proof.
  intros L D H. destruct (tabulated_some nested level L) as [x [w Q]].
  destruct (proj2 (C74_structure nested) level x w L Q) as [Lx [_ [N _]]].
  assert (T : check_tables close_to_one nested = true) by (destruct nested; vm_compute; reflexivity).
  destruct (check_all close_to_one nested level x w T L Q) as [zx [zw [Ex [Ew C]]]].
  apply andb_true_iff in C. destruct C as [_ C]. apply Z.leb_le in C.
  set (s := univariate (whole_line x w) (fun _ => 1)).
  assert (S : Rabs (s - 1) <= / 10 ^ 15).
  { assert (E : s = univariate (whole_line (to_nodes zx) (to_weights zw)) (fun a => a ^ 0)) by (rewrite <- Ex, <- Ew; reflexivity).
    rewrite E, zmoment_R. rewrite pow_O. apply IZR_le in C. rewrite mult_IZR, abs_IZR, minus_IZR in C.
    change (10 ^ 40)%Z with (10 ^ Z.of_nat 40)%Z in C. change (10 ^ 15)%Z with (10 ^ Z.of_nat 15)%Z in C. rewrite !zpow in C.
    set (u := 10 ^ 40) in *. set (v := 10 ^ 15) in *. assert (0 < u) by (unfold u; apply pow_lt; lra). assert (0 < v) by (unfold v; apply pow_lt; lra).
    clearbody u v. rewrite Rmult_1_r. apply (Rmult_le_reg_r (u * v)); [nra|]. replace (/ v * (u * v)) with u by (field; lra).
    eapply Rle_trans; [|exact C]. right. rewrite <- Rmult_assoc. f_equal. rewrite <- (Rabs_pos_eq u) at 2 by lra. rewrite <- Rabs_mult. f_equal. field. lra. }
  assert (W : suml (fun v => v) weights = s ^ d).
  { assert (P := H). unfold product_rule in P. rewrite Q in P. cbv zeta in P. injection P as <- <-.
    set (drop := dropped level nested) in *.
    destruct (product_rows (repeat (mirrored_nodes drop x) d) (repeat (mirrored_weights drop w) d)) as [P PL].
    { apply forall2_repeat, mirrored_length. exact Lx. }
    { destruct d; [lia|discriminate]. }
    rewrite <- weights_sum_suml, <- (integral_one _ _ PL). unfold integral. rewrite P.
    etransitivity; [exact (tensor_integral _ (fun _ => 1))|]. rewrite map_combine_repeat. cbn [fst snd].
    assert (M : univariate (combine (mirrored_nodes drop x) (mirrored_weights drop w)) (fun _ => 1) = s).
    { apply mirrored_rule; [exact Lx| | |apply dropped_le]; intros Ed; rewrite dropped_odd in N; fold drop in N; rewrite Ed in N; cbn in N.
      - intros I. rewrite Forall_forall in N. apply N in I. lra.
      - destruct N as [y [-> F]]. exists y. split; [reflexivity|]. intros I. rewrite Forall_forall in F. apply F in I. lra. }
    clear - M. induction d as [|d IH]; cbn [repeat iterated pow]; [reflexivity|]. rewrite <- M. unfold univariate at 1 2.
    rewrite <- suml_scal_r. apply suml_ext. intros p _. rewrite IH, M. ring. }
  rewrite W. clear - S. set (e := / 10 ^ 15) in *. assert (E : 0 < e) by (unfold e; apply Rinv_0_lt_compat, pow_lt; lra). clearbody e.
  assert (A : Rabs s <= 1 + e). { replace s with (1 + (s - 1)) by ring. eapply Rle_trans; [apply Rabs_triang|]. rewrite Rabs_R1. lra. }
  induction d as [|d IH]; cbn [pow]; [rewrite Rminus_diag_eq by reflexivity; rewrite Rabs_R0; lra|].
  replace (s * s ^ d - 1) with (s * (s ^ d - 1) + (s - 1)) by ring. eapply Rle_trans; [apply Rabs_triang|]. rewrite Rabs_mult.
  assert (Rabs s * Rabs (s ^ d - 1) <= (1 + e) * ((1 + e) ^ d - 1)) by (apply Rmult_le_compat; try apply Rabs_pos; assumption).
  lra.
Qed.
Print Assumptions C74_product_weights.

Example C74_applies : exists nodes weights, product_rule (tabulated true) 3 7 true = Some (nodes, weights) /\ (1 <= 7 <= 25)%nat.
Proof.
  destruct (tabulated_some true 7 ltac:(lia)) as [x [w Q]]. unfold product_rule. rewrite Q. do 2 eexists. split; [reflexivity|lia].
Qed.
