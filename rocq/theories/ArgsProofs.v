(** Proofs about validated arguments. *)
From Coq Require Import Reals Lra Lia ZArith List Bool Arith String Ascii FunctionalExtensionality.
From Verif Require Import Base FltModel DemandModel DemandSpec DemandProofs DemandShares DemandElim SupplyModel SupplySpec SupplyProofs WelfareModel WelfareSpec WelfareProofs ValueProofs ArgsModel ArgsSpec.
Import ListNotations.

Lemma pid_eqb_eq p q : pid_eqb p q = true <-> p = q.
Proof.
  destruct p as [a|s], q as [b|t]; cbn; try (split; [discriminate|congruence]).
  - rewrite Z.eqb_eq. split; congruence.
  - rewrite String.eqb_eq. split; congruence.
Qed.
Lemma member_items p l : existsb (pid_eqb p) l = true <-> In p l.
Proof.
  rewrite existsb_exists. split; [intros (q & Hq & E); apply pid_eqb_eq in E; subst q; exact Hq|intro Hp; exists p; split; [exact Hp|apply pid_eqb_eq; reflexivity]].
Qed.
Lemma prefix_spec p t : String.prefix p t = true <-> exists b, t = (p ++ b)%string.
Proof.
  revert t. induction p as [|c p IH]; intro t.
  - split; [intros _; exists t; reflexivity|intros _; destruct t; reflexivity].
  - destruct t as [|d t]; [split; [discriminate|intros (b & E); discriminate E]|]. change (prefix (String c p) (String d t)) with (if ascii_dec c d then prefix p t else false). destruct (ascii_dec c d) as [<-|Ne].
    + rewrite IH. split; intros (b & E); exists b; cbn in *; congruence.
    + split; [discriminate|intros (b & E); cbn in E; congruence].
Qed.
Lemma contains_spec p t : contains p t = true <-> part_of p t.
Proof.
  unfold part_of. induction t as [|c t IH].
  - cbn [contains]. rewrite orb_false_r, prefix_spec. split; [intros (b & E); exists ""%string, b; exact E|].
    intros (a & b & E). destruct a; [exists b; exact E|discriminate E].
  - cbn [contains]. rewrite orb_true_iff, prefix_spec, IH. split.
    + intros [(b & E)|(a & b & E)]; [exists ""%string, b; exact E|]. exists (String c a), b. cbn. congruence.
    + intros (a & b & E). destruct a as [|d a]; [left; exists b; exact E|]. right. exists a, b. cbn in E. congruence.
Qed.

Lemma eliminated_items J ids l : eliminated J ids (Items l) = Some (fun j => existsb (pid_eqb (ids j)) l).
Proof. unfold eliminated. cbn [member]. assert (E : forallb (fun _ : nat => true) (seq 0 J) = true) by (apply forallb_forall; reflexivity). rewrite E. reflexivity. Qed.

Lemma index_spec rows columns v c : validate_index rows columns v = inl c <-> (as_int v = Some (Z.of_nat c) /\ c < columns /\ 0 < rows)%nat.
Proof.
  unfold validate_index. destruct (as_int v) as [z|]; [|split; [discriminate|intros [E _]; discriminate E]].
  destruct (Z.ltb_spec z 0); [split; [discriminate|intros [E _]; injection E as ->; lia]|].
  destruct (Nat.eqb_spec (rows * columns) 0) as [Z0|Z0]; [split; [discriminate|intros (_ & A & B); nia]|].
  destruct (Z.leb_spec 0 z); [|lia]. destruct (Z.leb_spec z (Z.of_nat (columns - 1))); cbn [andb].
  - split; [intro E; injection E as <-; rewrite Z2Nat.id by lia; repeat split; nia|intros (E & _); injection E as ->; rewrite Nat2Z.id; reflexivity].
  - split; [discriminate|intros (E & A & _); injection E as ->; lia].
Qed.

Lemma mask_mono M avail mask mask' x i a :
  valid_market (fm M) -> (forall y, good_columns M y) -> eps_scale (fm M) = 1%R -> (0 < a)%R -> no_income_effects (mJ (fm M)) (price_utility M i) a ->
  (forall j, (j < mJ (fm M))%nat -> mask j = true -> mask' j = true) ->
  let av := fun i => option_map (fun (b : nat -> bool) j => indR (b j)) (avail i) in
  (individual_surplus M av (Some mask') x i <= individual_surplus M av (Some mask) x i)%R.
Proof.
  intros V G E1 Ha N H av. unfold av. rewrite !(surplus_is M i a V G E1 N). unfold Rdiv. apply Rmult_le_compat_r; [left; apply Rinv_0_lt_compat, Ha|].
  assert (X := surplus_weights_nonneg (fm M) (included (avail i) None (Some mask')) (price_utility M i x)).
  assert (L : (surplus_weights (fm M) (included (avail i) None (Some mask')) (price_utility M i x) <= surplus_weights (fm M) (included (avail i) None (Some mask)) (price_utility M i x))%R).
  { apply weights_inc_mono; [exact V|]. intros j Hj. rewrite !eliminated_included. destruct (included (avail i) None None j); [|discriminate]. cbn. destruct (mask j) eqn:E; [rewrite (H j Hj E)|]; auto. }
  destruct L as [L|L]; [left; apply ln_increasing; lra|right; rewrite L; reflexivity].
Qed.
Lemma total_mono M avail mask mask' x (a : nat -> R) :
  valid_market (fm M) -> (forall y, good_columns M y) -> eps_scale (fm M) = 1%R -> (forall i, (i < fI M)%nat -> (0 < a i)%R /\ no_income_effects (mJ (fm M)) (price_utility M i) (a i)) ->
  (forall i, (i < fI M)%nat -> (0 <= fw M i)%R) -> (forall j, (j < mJ (fm M))%nat -> mask j = true -> mask' j = true) ->
  let av := fun i => option_map (fun (b : nat -> bool) j => indR (b j)) (avail i) in
  (consumer_surplus M av (Some mask') x <= consumer_surplus M av (Some mask) x)%R.
Proof.
  intros V G E1 N Hw H av. unfold consumer_surplus. apply sumn_le. intros i Hi. apply Rmult_le_compat_r; [apply Hw, Hi|]. destruct (N i Hi) as [Ha Ni]. exact (mask_mono M avail mask mask' x i (a i) V G E1 Ha Ni H).
Qed.
Lemma surplus_mask_ext M avail mask mask' x : (forall j, mask j = mask' j) -> consumer_surplus M avail (Some mask) x = consumer_surplus M avail (Some mask') x.
Proof. intro E. replace mask' with mask by (apply functional_extensionality, E). reflexivity. Qed.

Lemma shape_spec draws rows columns shape : (0 < draws)%nat -> shape_eqb (atleast_3d shape) [draws; rows; columns] = true <-> read_as draws rows columns shape.
Proof.
  intro D. unfold shape_eqb, read_as. destruct (list_eq_dec _ _ _) as [E|Ne].
  - split; [intros _|reflexivity]. destruct shape as [|n [|k [|l s]]]; cbn in E.
    + injection E as <- <- <-. right; right; right; auto.
    + injection E as <- <- <-. right; right; left; auto.
    + injection E as <- <- <-. right; left; auto.
    + left. exact E.
  - split; [discriminate|]. intros [-> |[[-> ->]|[(-> & -> & ->)|(-> & -> & -> & ->)]]]; cbn in Ne; contradiction (Ne eq_refl).
Qed.
