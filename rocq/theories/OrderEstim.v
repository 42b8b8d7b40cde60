(** Costs and the objective with data in another order. *)
From Coq Require Import Reals Lra Lia List Bool Arith.
From Verif Require Import Base ProgressModel DemandModel SupplyModel SupplyProofs DerivModel GradModel EndoSpec OrderSpec OrderProofs.
Import ListNotations.
Local Open Scope R_scope.

Lemma renumbers_inverse n p : renumbers n p -> exists q, renumbers n q /\ forall j, (j < n)%nat -> q (p j) = j /\ p (q j) = j.
Proof.
  intros Hp.
  set (q := fun k => if Nat.ltb k n then match find (fun j => Nat.eqb (p j) k) (seq 0 n) with Some j => j | None => k end else k).
  assert (Hq : forall k, (k < n)%nat -> (q k < n)%nat /\ p (q k) = k).
  { intros k Hk. unfold q. rewrite (proj2 (Nat.ltb_lt k n) Hk).
    destruct (find (fun j => Nat.eqb (p j) k) (seq 0 n)) as [j|] eqn:E.
    - apply find_some in E. destruct E as [Hj E]. apply in_seq in Hj. apply Nat.eqb_eq in E. split; [lia|exact E].
    - destruct (renumbers_onto n p k Hp Hk) as [j [Hj Ej]].
      assert (F := find_none _ _ E j ltac:(apply in_seq; lia)). cbv beta in F. rewrite Ej, Nat.eqb_refl in F. discriminate. }
  assert (Hqp : forall j, (j < n)%nat -> q (p j) = j).
  { intros j Hj. assert (Hpj := proj1 Hp j Hj). destruct (Hq (p j) Hpj) as [A B]. apply (proj1 (proj2 Hp)); assumption. }
  exists q. split; [|intros j Hj; split; [apply Hqp, Hj|apply Hq, Hj]].
  split; [intros j Hj; apply Hq, Hj|]. split.
  - intros j k Hj Hk E. rewrite <- (proj2 (Hq j Hj)), <- (proj2 (Hq k Hk)), E. reflexivity.
  - intros j Hj. unfold q. rewrite (proj2 (Nat.ltb_ge j n) Hj). reflexivity.
Qed.

Lemma solution_reorder J p A b x y : renumbers J p -> nonsingular J A -> solves J A b x ->
  solves J (fun j k => A (p j) (p k)) (fun j => b (p j)) y -> forall j, (j < J)%nat -> y j = x (p j).
Proof.
  intros Hp HN Hx Hy j Hj. destruct (renumbers_inverse J p Hp) as [q [Hq I]].
  assert (Z : forall k, (k < J)%nat -> y (q k) - x k = 0).
  { apply (HN (fun k => y (q k) - x k)). intros k Hk.
    rewrite (sumn_ext J _ (fun l => A k l * y (q l) - A k l * x l)) by (intros; ring).
    rewrite sumn_minus, (Hx k Hk).
    assert (E := Hy (q k) (proj1 Hq k Hk)). cbv beta in E. rewrite (proj2 (I k Hk)) in E.
    rewrite <- E. rewrite <- (sumn_renumber J p (fun l => A k l * y (q l)) Hp).
    rewrite (sumn_ext J (fun l => A k (p l) * y (q (p l))) (fun l => A k (p l) * y l)); [ring|].
    intros l Hl. rewrite (proj1 (I l Hl)). reflexivity. }
  specialize (Z (p j) (proj1 Hp j Hj)). rewrite (proj1 (I j Hj)) in Z. lra.
Qed.

Lemma solves_ext J A A' b x : (forall j k, (j < J)%nat -> (k < J)%nat -> A j k = A' j k) -> solves J A b x -> solves J A' b x.
Proof.
  intros E H j Hj. rewrite <- (H j Hj). apply sumn_ext. intros k Hk. rewrite E by assumption. reflexivity.
Qed.

Lemma eta_reorder J p solve solve' M O observed : renumbers J p -> mJ (fm M) = J ->
  nonsingular J (capital_delta M O (var0 M)) -> exact_solver J solve -> exact_solver J solve' ->
  snd (compute_eta solve M O observed) = false ->
  snd (compute_eta solve' (reorder_full p M) (fun j k => O (p j) (p k)) (fun j => observed (p j))) = false ->
  forall j, (j < J)%nat ->
  fst (compute_eta solve' (reorder_full p M) (fun j k => O (p j) (p k)) (fun j => observed (p j))) j
  = fst (compute_eta solve M O observed) (p j).
Proof.
  intros Hp HJ HN HS HS' E E'. apply (solution_reorder J p _ observed _ _ Hp HN (HS _ _ E)).
  apply (solves_ext J (capital_delta (reorder_full p M) (fun j k => O (p j) (p k)) (fun j => var0 M (p j)))).
  - intros j k Hj Hk. exact (capital_delta_reorder J p Hp M HJ O (var0 M) j k Hj Hk).
  - exact (HS' _ _ E').
Qed.

Lemma costs_reorder J p solve solve' M O observed : renumbers J p -> mJ (fm M) = J ->
  nonsingular J (capital_delta M O (var0 M)) -> exact_solver J solve -> exact_solver J solve' ->
  snd (compute_costs solve M O observed) = false ->
  snd (compute_costs solve' (reorder_full p M) (fun j k => O (p j) (p k)) (fun j => observed (p j))) = false ->
  forall j, (j < J)%nat ->
  fst (compute_costs solve' (reorder_full p M) (fun j k => O (p j) (p k)) (fun j => observed (p j))) j
  = fst (compute_costs solve M O observed) (p j).
Proof.
  intros Hp HJ HN HS HS' E E' j Hj.
  assert (H := eta_reorder J p solve solve' M O observed Hp HJ HN HS HS').
  unfold compute_costs in *.
  destruct (compute_eta solve M O observed) as [eta bad].
  destruct (compute_eta solve' (reorder_full p M) (fun j k => O (p j) (p k)) (fun j => observed (p j))) as [eta' bad'].
  cbn [fst snd] in *. rewrite (H E E' j Hj). reflexivity.
Qed.

(* ---------- The objective ---------- *)

Section Objective.
  Variables (solve : nat -> solver) (inverse : nat -> (nat -> nat -> R) -> (nat -> nat -> R) * bool).
  Variables (ec ec' : economy) (r : nat -> nat) (p : nat -> nat -> nat).
  Variables (delta_of delta_of' : point -> nat -> nat -> R) (v : point).
  Hypothesis HR : reordered_rows r p ec ec'.
  Let J s := mJ (fm (e_market (ec_market ec s))).
  Let sr := stacked_rows (ec_N ec) r.
  Hypothesis HD : forall s j, delta_of' v s j = delta_of v s (p s j).
  Hypothesis HS : forall n, exact_solver n (solve n).
  (** Markups are determined and no approximation was reported. *)
  Hypothesis HC : ec_supply ec = true -> forall s, (s < ec_T ec)%nat ->
    let M := market_of (ec_market ec s) v (delta_of v s) in
    nonsingular (J s) (capital_delta M (e_ownership (ec_market ec s)) (var0 M)) /\
    snd (eta_of solve (ec_market ec s) v (delta_of v s) inverse false) = false /\
    snd (eta_of solve (ec_market ec' s) v (delta_of' v s) inverse false) = false.

  Let rw := rows ec.

  Lemma rows_same : rows ec' = rw.
  Proof. destruct HR as (_ & _ & _ & _ & _ & HN & HU & _). unfold rw, rows. rewrite HN, HU. reflexivity. Qed.

  Lemma row_sum f : sumn rw (fun n => f (sr n)) = sumn rw f.
  Proof using HR.
    clear HC HS HD. destruct HR as ((A & B & C) & _). subst rw. unfold rows.
    set (R0 := if ec_supply ec then (ec_N ec + ec_N ec)%nat else ec_N ec).
    assert (HR0 : R0 = ec_N ec \/ R0 = (ec_N ec + ec_N ec)%nat) by (unfold R0; destruct (ec_supply ec); auto).
    set (q := fun n => if Nat.ltb n R0 then sr n else n).
    assert (Hq : renumbers R0 q).
    { clearbody R0. unfold q, sr, stacked_rows. split; [|split].
      - intros j Hj. rewrite (proj2 (Nat.ltb_lt j R0) Hj). destruct (Nat.ltb_spec j (ec_N ec)) as [Hl|Hl].
        + specialize (A j Hl). lia.
        + assert (F : (j - ec_N ec < ec_N ec)%nat) by lia. specialize (A _ F). lia.
      - intros j k Hj Hk. rewrite (proj2 (Nat.ltb_lt j R0) Hj), (proj2 (Nat.ltb_lt k R0) Hk).
        destruct (Nat.ltb_spec j (ec_N ec)) as [Hl|Hl], (Nat.ltb_spec k (ec_N ec)) as [Hm|Hm].
        + apply B; assumption.
        + assert (F := A j Hl). lia.
        + assert (F := A k Hm). lia.
        + intros E. assert (F : (j - ec_N ec = k - ec_N ec)%nat) by (apply B; lia). lia.
      - intros j Hj. rewrite (proj2 (Nat.ltb_ge j R0) Hj). reflexivity. }
    rewrite <- (sumn_renumber R0 q f Hq). apply sumn_ext. intros n Hn. unfold q. rewrite (proj2 (Nat.ltb_lt n R0) Hn). reflexivity.
  Qed.
  Lemma sr_bound n : (n < rw)%nat -> (sr n < rw)%nat.
  Proof using HR.
    clear HC HS HD.
    destruct HR as ((A & B & C) & _). subst rw. unfold rows, sr, stacked_rows. intros Hn.
    destruct (Nat.ltb_spec n (ec_N ec)) as [Hl|Hl].
    - specialize (A n Hl). destruct (ec_supply ec); lia.
    - destruct (ec_supply ec); [|lia]. assert (F : (n - ec_N ec < ec_N ec)%nat) by lia. specialize (A _ F). lia.
  Qed.

  Lemma reordered_market s : market_of (ec_market ec' s) v (delta_of' v s) =
    reorder_full (p s) (market_of (ec_market ec s) v (delta_of v s)).
  Proof.
    destruct HR as (_ & _ & _ & HM & _). rewrite HM.
    replace (delta_of' v s) with (fun j => delta_of v s (p s j)); [reflexivity|].
    apply FunctionalExtensionality.functional_extensionality. intros j. symmetry. apply HD.
  Qed.

  Lemma iv_delta_reorder n : (n < ec_N ec)%nat ->
    iv_delta ec' delta_of' v (fst (ec_row ec' n)) (snd (ec_row ec' n))
    = iv_delta ec delta_of v (fst (ec_row ec (r n))) (snd (ec_row ec (r n))).
  Proof.
    intros Hn. destruct HR as (_ & _ & Hrow & HM & _ & _ & _ & _ & HK & HE & _). specialize (Hrow n Hn).
    destruct (ec_row ec' n) as [s j]. destruct Hrow as (_ & Hj & E). rewrite E. cbn [fst snd].
    unfold iv_delta. rewrite HK, HE, HD, HM. reflexivity.
  Qed.

  Lemma tilde_reorder n : ec_supply ec = true -> (n < ec_N ec)%nat ->
    iv_tilde_costs solve inverse ec' delta_of' false v (fst (ec_row ec' n)) (snd (ec_row ec' n))
    = iv_tilde_costs solve inverse ec delta_of false v (fst (ec_row ec (r n))) (snd (ec_row ec (r n))).
  Proof.
    intros HU Hn. assert (RM := reordered_market).
    destruct HR as (_ & Hp & Hrow & HM & _ & _ & _ & HL & _ & _ & HK & HE & _). specialize (Hrow n Hn).
    destruct (ec_row ec' n) as [s j]. destruct Hrow as (Hs & Hj & E). rewrite E. cbn [fst snd].
    unfold iv_tilde_costs. rewrite HK, HE, HL. f_equal; [|rewrite HM; reflexivity].
    destruct (HC HU s Hs) as (HN & E1 & E2).
    unfold tilde_costs_at, tilde_costs_of. unfold eta_of in *.
    specialize (RM s). rewrite HM in RM, E2 |- *. rewrite RM in E2 |- *.
    set (M := market_of (ec_market ec s) v (delta_of v s)) in *.
    change (mJ (fm (reorder_full (p s) M))) with (J s) in E2 |- *. change (mJ (fm M)) with (J s) in E1 |- *.
    assert (X := eta_reorder (J s) (p s) (solve (J s)) (solve (J s)) M (e_ownership (ec_market ec s)) (e_shares (ec_market ec s))
      (Hp s) eq_refl HN (HS _) (HS _) E1 E2 j Hj).
    change (e_ownership (reorder_economy_market (p s) (ec_market ec s))) with (fun j k => e_ownership (ec_market ec s) (p s j) (p s k)).
    change (e_shares (reorder_economy_market (p s) (ec_market ec s))) with (fun j => e_shares (ec_market ec s) (p s j)).
    rewrite X. reflexivity.
  Qed.

  Lemma stacked_reorder n : (n < rw)%nat ->
    stacked solve inverse ec' delta_of' false v n = stacked solve inverse ec delta_of false v (sr n).
  Proof.
    intros Hn. unfold stacked, sr, stacked_rows.
    assert (HN : ec_N ec' = ec_N ec) by apply HR. rewrite HN.
    assert (Hr : renumbers (ec_N ec) r) by apply HR.
    destruct (Nat.ltb_spec n (ec_N ec)) as [Hl|Hl].
    - rewrite (proj2 (Nat.ltb_lt (r n) (ec_N ec)) (proj1 Hr n Hl)). apply iv_delta_reorder, Hl.
    - assert (HU : ec_supply ec = true) by (subst rw; unfold rows in Hn; destruct (ec_supply ec); [reflexivity|lia]).
      assert (F : (n - ec_N ec < ec_N ec)%nat) by (subst rw; unfold rows in Hn; rewrite HU in Hn; lia).
      rewrite (proj2 (Nat.ltb_ge (ec_N ec + r (n - ec_N ec)) (ec_N ec)) (Nat.le_add_r _ _)).
      replace (ec_N ec + r (n - ec_N ec) - ec_N ec)%nat with (r (n - ec_N ec)) by lia.
      apply tilde_reorder; assumption.
  Qed.

  Lemma absorbed_reorder n : (n < rw)%nat ->
    absorbed ec' (stacked solve inverse ec' delta_of' false v) n
    = absorbed ec (stacked solve inverse ec delta_of false v) (sr n).
  Proof.
    intros Hn. unfold absorbed. rewrite rows_same. change (rows ec) with rw.
    rewrite <- (row_sum (fun m => ec_absorb ec (sr n) m * stacked solve inverse ec delta_of false v m)).
    apply sumn_ext. intros m Hm. rewrite stacked_reorder by exact Hm. f_equal.
    destruct HR as (_ & _ & _ & _ & _ & _ & _ & _ & _ & _ & _ & _ & _ & _ & _ & _ & _ & _ & _ & HA). apply HA.
  Qed.

  Lemma X_reorder n k : ec_X ec' n k = ec_X ec (sr n) k.
  Proof using HR. destruct HR as (_ & _ & _ & _ & _ & _ & _ & _ & _ & _ & _ & _ & _ & _ & _ & _ & _ & HX & _). apply HX. Qed.
  Lemma Z_reorder n k : ec_Z ec' n k = ec_Z ec (sr n) k.
  Proof using HR. destruct HR as (_ & _ & _ & _ & _ & _ & _ & _ & _ & _ & _ & _ & _ & _ & _ & _ & _ & _ & HZ & _). apply HZ. Qed.

  (** The cross products that determine weighting matrices and parameters do not change. *)
  Lemma ZZ_reorder i j : sumn rw (fun n => ec_Z ec' n i * ec_Z ec' n j) = sumn rw (fun n => ec_Z ec n i * ec_Z ec n j).
  Proof using HR.
    rewrite <- (row_sum (fun n => ec_Z ec n i * ec_Z ec n j)). apply sumn_ext. intros n _. rewrite !Z_reorder. reflexivity.
  Qed.
  Lemma XZ_reorder k i : sumn rw (fun n => ec_X ec' n k * ec_Z ec' n i) = sumn rw (fun n => ec_X ec n k * ec_Z ec n i).
  Proof using HR.
    rewrite <- (row_sum (fun n => ec_X ec n k * ec_Z ec n i)). apply sumn_ext. intros n _. rewrite X_reorder, Z_reorder. reflexivity.
  Qed.

  Let y := absorbed ec (stacked solve inverse ec delta_of false v).
  Let y' := absorbed ec' (stacked solve inverse ec' delta_of' false v).
  Let b := iv_parameters rw (ec_MI ec) (ec_K ec) (ec_X ec) (ec_Z ec) (ec_W ec) (ec_A ec) y.
  Let b' := iv_parameters rw (ec_MI ec) (ec_K ec) (ec_X ec') (ec_Z ec') (ec_W ec) (ec_A ec) y'.

  Lemma parameters_reorder k : b' k = b k.
  Proof.
    unfold b, b', iv_parameters. apply sumn_ext. intros l _. f_equal. apply sumn_ext. intros i _. rewrite XZ_reorder. f_equal.
    apply sumn_ext. intros j _. f_equal. rewrite <- (row_sum (fun n => ec_Z ec n j * y n)). apply sumn_ext. intros n Hn.
    rewrite Z_reorder. unfold y'. rewrite absorbed_reorder by exact Hn. reflexivity.
  Qed.

  Lemma residual_reorder n : (n < rw)%nat -> residual (ec_K ec) (ec_X ec') b' y' n = residual (ec_K ec) (ec_X ec) b y (sr n).
  Proof.
    intros Hn. unfold residual, y'. rewrite absorbed_reorder by exact Hn. f_equal. apply sumn_ext. intros k _.
    rewrite X_reorder, parameters_reorder. reflexivity.
  Qed.

  Lemma moments_reorder i : (i < ec_MI ec)%nat ->
    moments_at solve inverse ec' delta_of' false v i = moments_at solve inverse ec delta_of false v i.
  Proof.
    intros Hi. unfold moments_at, evaluation_moments, stack_moments. rewrite rows_same.
    assert (E1 : ec_N ec' = ec_N ec) by apply HR. assert (E2 : ec_MI ec' = ec_MI ec) by apply HR.
    assert (E3 : ec_K ec' = ec_K ec) by apply HR. assert (E4 : ec_W ec' = ec_W ec) by apply HR.
    assert (E5 : ec_A ec' = ec_A ec) by apply HR. rewrite E1, E2, E3, E4, E5.
    rewrite (proj2 (Nat.ltb_lt i (ec_MI ec)) Hi). unfold iv_moment. f_equal.
    change (rows ec) with rw.
    etransitivity; [|exact (row_sum (fun n => ec_Z ec n i * residual (ec_K ec) (ec_X ec) b y n))].
    apply sumn_ext. intros n Hn. rewrite Z_reorder. f_equal. exact (residual_reorder n Hn).
  Qed.

  Lemma objective_reorder : ec_moments ec = [] -> ec_moments ec' = [] ->
    objective_at solve inverse ec' delta_of' false v = objective_at solve inverse ec delta_of false v.
  Proof.
    intros H0 H0'. unfold objective_at, gmm_value, MM. rewrite H0, H0'. cbn [length]. rewrite Nat.add_0_r.
    assert (E1 : ec_N ec' = ec_N ec) by apply HR. assert (E2 : ec_MI ec' = ec_MI ec) by apply HR.
    assert (E4 : ec_W ec' = ec_W ec) by apply HR. assert (E5 : ec_scale ec' = ec_scale ec) by apply HR.
    rewrite E1, E2, E4, E5, Nat.add_0_r. f_equal. apply sumn_ext. intros i Hi. rewrite moments_reorder by exact Hi. f_equal.
    apply sumn_ext. intros j Hj. rewrite moments_reorder by exact Hj. reflexivity.
  Qed.
End Objective.
