(** Existence of an equilibrium of firms that each sell in one nest. *)
From Coq Require Import Reals Lra Lia ZArith List Bool Arith FunctionalExtensionality.
From Verif Require Import Base DemandSpec DemandModel DemandProofs DemandShares SupplyModel SupplySpec SupplyProofs ClosedSpec ClosedProofs CompetSpec CompetProofs.
Local Open Scope R_scope.

Section Continuity.
  Notation cont f := (forall s : R, continuity_pt f s).
  Lemma cont_const c : cont (fun _ => c).
  Proof. intros s. apply continuity_pt_const. intros x y. reflexivity. Qed.
  Lemma cont_id : cont (fun s => s).
  Proof. intros s. apply derivable_continuous_pt. apply derivable_pt_id. Qed.
  Lemma cont_plus f g : cont f -> cont g -> cont (fun s => f s + g s).
  Proof. intros A B s. apply (continuity_pt_plus f g s); [apply A|apply B]. Qed.
  Lemma cont_minus f g : cont f -> cont g -> cont (fun s => f s - g s).
  Proof. intros A B s. apply (continuity_pt_minus f g s); [apply A|apply B]. Qed.
  Lemma cont_mult f g : cont f -> cont g -> cont (fun s => f s * g s).
  Proof. intros A B s. apply (continuity_pt_mult f g s); [apply A|apply B]. Qed.
  Lemma cont_div f g : (forall s, g s <> 0) -> cont f -> cont g -> cont (fun s => f s / g s).
  Proof. intros Z A B s. apply (continuity_pt_div f g s); [apply A|apply B|apply Z]. Qed.
  Lemma cont_exp f : cont f -> cont (fun s => exp (f s)).
  Proof. intros A s. apply (continuity_pt_comp f exp s); [apply A|]. apply derivable_continuous_pt, derivable_pt_exp. Qed.
  Lemma cont_power f c : (forall s, 0 < f s) -> cont f -> cont (fun s => Rpower (f s) c).
  Proof.
    intros P A. unfold Rpower. apply cont_exp. apply cont_mult; [apply cont_const|]. intros s. apply (continuity_pt_comp f ln s); [apply A|].
    apply derivable_continuous_pt. exists (/ f s). apply derivable_pt_lim_ln, P.
  Qed.
  Lemma cont_sumn n (f : nat -> R -> R) : (forall k, (k < n)%nat -> cont (f k)) -> cont (fun s => sumn n (fun k => f k s)).
  Proof.
    induction n as [|n IH]; intros A; cbn [sumn]; [apply cont_const|]. apply cont_plus; [|apply A; lia]. apply IH. intros k Hk. apply A. lia.
  Qed.
End Continuity.

Section Exist.
  Variable M : full_market.
  Variable a : R.
  Hypothesis N : nested_demand M a.
  Let m := fm M.
  Let J := mJ m.
  Let Ha := nd_positive M a N.
  Let g := gidx m.
  Let r := grhox m.
  Variable firm : nat -> Z.
  Hypothesis F : one_nest m firm.
  Variable c : nat -> R.

  Definition at_markups (mu : nat -> R) (k : nat) : R := c k + mu k.
  (** Another markup of one firm. *)
  Definition put (mu : nat -> R) (j : nat) (s : R) (k : nat) : R := if Z.eqb (firm j) (firm k) then s else mu k.

  Lemma cont_U mu j k : (k < J)%nat -> forall s, continuity_pt (fun s => U M (at_markups (put mu j s)) k) s.
  Proof.
    intros Hk. replace (fun s => U M (at_markups (put mu j s)) k) with (fun s => U M c k - a * (if Z.eqb (firm j) (firm k) then s else mu k)).
    - apply cont_minus; [apply cont_const|]. apply cont_mult; [apply cont_const|]. destruct (Z.eqb (firm j) (firm k)); [apply cont_id|apply cont_const].
    - apply functional_extensionality. intros s. rewrite (U_linear M a N c (at_markups (put mu j s)) k Hk). unfold at_markups, put. f_equal. ring.
  Qed.
  Lemma cont_wt mu j k h : (k < J)%nat -> (h < grpn m)%nat -> forall s, continuity_pt (fun s => exp (U M (at_markups (put mu j s)) k / (1 - r h))) s.
  Proof. intros Hk Hh. apply cont_exp. apply cont_div; [intros _; pose proof (r_lt M a N h Hh) as Q; change (r h < 1) in Q; lra|apply cont_U; exact Hk|apply cont_const]. Qed.
  Lemma cont_nest mu j h : (h < grpn m)%nat -> forall s, continuity_pt (fun s => nest_wt M (at_markups (put mu j s)) h) s.
  Proof.
    intros Hh. unfold nest_wt, inclusive. apply cont_sumn. intros k Hk. fold m r. destruct (all_goods k && Nat.eqb (gidx m k) h)%bool; [|apply cont_const].
    apply (cont_wt mu j k h Hk Hh).
  Qed.
  Lemma cont_pow mu j h : (h < grpn m)%nat -> forall s, continuity_pt (fun s => nest_pow M (at_markups (put mu j s)) h) s.
  Proof.
    intros Hh. unfold nest_pow, group_weight. destruct (existsb _ _) eqn:Ex; [|apply cont_const].
    apply cont_power; [intros s; apply inclusive_pos; exact Ex|apply (cont_nest mu j h Hh)].
  Qed.
  Lemma cont_mk mu j : (j < J)%nat -> forall s, continuity_pt (fun s => mk M a firm (at_markups (put mu j s)) j) s.
  Proof.
    intros Hj. pose proof (g_lt M a N j Hj) as Gj.
    assert (CW : forall s, continuity_pt (fun s => W M firm (at_markups (put mu j s)) j) s).
    { unfold W. apply cont_div; [intros s; apply Rgt_not_eq, nest_wt_pos; exact Hj| |apply (cont_nest mu j _ Gj)].
      unfold firm_wt. apply cont_sumn. intros k Hk. destruct (Z.eqb (firm j) (firm k)); [|apply cont_const]. apply (cont_wt mu j k _ Hk (g_lt M a N k Hk)). }
    assert (CS : forall s, continuity_pt (fun s => Sh M firm (at_markups (put mu j s)) j) s).
    { unfold Sh. apply cont_mult; [exact CW|]. apply cont_div; [intros s; pose proof (total_nonneg M (at_markups (put mu j s))); lra|apply (cont_pow mu j _ Gj)|].
      apply cont_plus; [apply cont_const|]. unfold total_pow. apply cont_sumn. intros h Hh. apply (cont_pow mu j h Hh). }
    unfold mk. apply cont_div; [|apply cont_const|].
    - intros s. pose proof (mk_denominator M a N firm F (at_markups (put mu j s)) j Hj). apply Rgt_not_eq, Rmult_lt_0_compat; assumption.
    - apply cont_mult; [apply cont_const|]. apply cont_minus; [apply cont_minus; [apply cont_const|]|]; apply cont_mult; first [apply cont_const|exact CW|exact CS].
  Qed.

  (** Markups that no firm wants to lower, and their least upper bound. *)
  Record modest (mu : nat -> R) : Prop := {
    md_same : forall j k, (j < J)%nat -> (k < J)%nat -> firm j = firm k -> mu j = mu k;
    md_positive : forall j, (j < J)%nat -> 0 <= mu j;
    md_low : forall j, (j < J)%nat -> mu j <= mk M a firm (at_markups mu) j
  }.
  Lemma mk_pos x j : (j < J)%nat -> 0 < mk M a firm x j.
  Proof.
    intros Hj. pose proof (mk_denominator M a N firm F x j Hj). destruct (r_bounds M a N j Hj). apply Rdiv_lt_0_compat; [lra|].
    apply Rmult_lt_0_compat; assumption.
  Qed.
  Lemma modest_zero : modest (fun _ => 0).
  Proof. constructor; intros; [reflexivity|lra|left; apply mk_pos; assumption]. Qed.
  Lemma modest_bounded mu j : modest mu -> (j < J)%nat -> mu j <= (1 + total_pow M c) / a.
  Proof.
    intros D Hj. apply Rle_trans with (mk M a firm (at_markups mu) j); [apply (md_low mu D j Hj)|].
    set (x := at_markups mu). destruct (W_le M firm F x j Hj) as [W0 W1]. destruct (r_bounds M a N j Hj) as [r0 r1]. pose proof (mk_denominator M a N firm F x j Hj) as Dn.
    pose proof (pow_le M x (gidx (fm M) j) (g_lt M a N j Hj)) as P. pose proof (total_nonneg M x) as Tx.
    assert (Tc : total_pow M x <= total_pow M c).
    { apply (total_le M a N c x). intros k Hk. unfold x, at_markups. pose proof (md_positive mu D k Hk). lra. }
    assert (Pn : 0 <= nest_pow M x (gidx (fm M) j)) by apply group_weight_nonneg.
    set (t := total_pow M x) in *. set (tc := total_pow M c) in *. unfold mk, Sh in *. fold t in Dn |- *. set (q := grhox (fm M) (gidx (fm M) j)) in *. set (G := nest_pow M x (gidx (fm M) j)) in *. set (w := W M firm x j) in *.
    assert (S1 : w * (G / (1 + t)) <= 1 - / (1 + tc)).
    { apply Rle_trans with (1 * (G / (1 + t))); [apply Rmult_le_compat_r; [apply Rmult_le_pos; [exact Pn|left; apply Rinv_0_lt_compat; lra]|exact W1]|].
      rewrite Rmult_1_l. apply Rle_trans with (t / (1 + t)); [apply Rmult_le_compat_r; [left; apply Rinv_0_lt_compat; lra|exact P]|].
      replace (t / (1 + t)) with (1 - / (1 + t)) by (field; lra). assert (/ (1 + tc) <= / (1 + t)) by (apply Rinv_le_contravar; lra). lra. }
    set (sh := w * (G / (1 + t))) in *.
    assert (Q0 : 0 < / (1 + tc)) by (apply Rinv_0_lt_compat; lra).
    assert (Q1 : (1 - q) * / (1 + tc) <= 1 - q * w - (1 - q) * sh).
    { assert (q * w <= q * 1) by (apply Rmult_le_compat_l; lra). assert ((1 - q) * sh <= (1 - q) * (1 - / (1 + tc))) by (apply Rmult_le_compat_l; lra). lra. }
    replace ((1 + tc) / a) with ((1 - q) / (a * ((1 - q) * / (1 + tc)))) by (field; repeat split; lra).
    unfold Rdiv. apply Rmult_le_compat_l; [lra|]. apply Rinv_le_contravar; [apply Rmult_lt_0_compat; [exact Ha|]; apply Rmult_lt_0_compat; lra|].
    apply Rmult_le_compat_l; lra.
  Qed.
  Definition attained (j : nat) (v : R) : Prop := exists mu, modest mu /\ v = mu j.
  Lemma attained_bound j : (j < J)%nat -> bound (attained j).
  Proof. intros Hj. exists ((1 + total_pow M c) / a). intros v (mu & D & ->). apply modest_bounded; assumption. Qed.
  Lemma attained_some j : exists v, attained j v.
  Proof. exists 0, (fun _ => 0). split; [apply modest_zero|reflexivity]. Qed.
  Definition top (j : nat) : R := match lt_dec j J with left Hj => proj1_sig (completeness (attained j) (attained_bound j Hj) (attained_some j)) | right _ => 0 end.
  Lemma top_lub j : (j < J)%nat -> is_lub (attained j) (top j).
  Proof. intros Hj. unfold top. destruct (lt_dec j J) as [H|]; [|contradiction]. destruct (completeness _ _ _) as [v L]. exact L. Qed.
  Lemma top_ge mu j : modest mu -> (j < J)%nat -> mu j <= top j.
  Proof. intros D Hj. apply (proj1 (top_lub j Hj)). exists mu. split; [exact D|reflexivity]. Qed.
  Lemma top_same j k : (j < J)%nat -> (k < J)%nat -> firm j = firm k -> top j = top k.
  Proof.
    assert (L : forall j k, (j < J)%nat -> (k < J)%nat -> firm j = firm k -> top j <= top k).
    { intros i l Hi Hl E. apply (proj2 (top_lub i Hi)). intros v (mu & D & ->). rewrite (md_same mu D i l Hi Hl E). apply top_ge; assumption. }
    intros Hj Hk E. apply Rle_antisym; apply L; try assumption. symmetry. exact E.
  Qed.
  Lemma put_top j : (j < J)%nat -> forall k, (k < J)%nat -> put top j (top j) k = top k.
  Proof. intros Hj k Hk. unfold put. destruct (Z.eqb_spec (firm j) (firm k)) as [E|]; [apply top_same; assumption|reflexivity]. Qed.
  Lemma mk_ext x y j : (j < J)%nat -> (forall k, (k < J)%nat -> x k = y k) -> mk M a firm x j = mk M a firm y j.
  Proof. intros Hj E. apply Rle_antisym; apply (others_dearer M a N firm F); try exact Hj; intros k Hk; rewrite (E k Hk); try intros _; lra. Qed.
  Lemma mk_top j : (j < J)%nat -> mk M a firm (at_markups (put top j (top j))) j = mk M a firm (at_markups top) j.
  Proof. intros Hj. apply mk_ext; [exact Hj|]. intros k Hk. unfold at_markups. rewrite (put_top j Hj k Hk). reflexivity. Qed.

  Lemma top_low j : (j < J)%nat -> top j <= mk M a firm (at_markups top) j.
  Proof.
    intros Hj. destruct (Rle_dec (top j) (mk M a firm (at_markups top) j)) as [|G]; [assumption|]. exfalso.
    set (h := fun s => mk M a firm (at_markups (put top j s)) j). assert (E0 : h (top j) = mk M a firm (at_markups top) j) by (apply mk_top; exact Hj).
    rewrite <- E0 in G. set (e := (top j - h (top j)) / 2). assert (He : e > 0) by (unfold e; lra).
    destruct (cont_mk top j Hj (top j) e He) as (d & Hd & C).
    set (d' := Rmin d e). assert (Hd' : 0 < d') by (unfold d'; apply Rmin_pos; lra).
    assert (Ex : exists mu, modest mu /\ top j - d' < mu j).
    { destruct (Classical_Prop.classic (exists mu, modest mu /\ top j - d' < mu j)) as [|No]; [assumption|]. exfalso.
      assert (B : top j <= top j - d').
      { apply (proj2 (top_lub j Hj)). intros v (mu & D & ->). destruct (Rle_dec (mu j) (top j - d')) as [|Q]; [assumption|]. exfalso. apply No. exists mu. split; [exact D|lra]. }
      lra. }
    destruct Ex as (mu & D & Close). pose proof (top_ge mu j D Hj) as Le.
    assert (Hh : mu j <= h (mu j)).
    { apply Rle_trans with (mk M a firm (at_markups mu) j); [apply (md_low mu D j Hj)|]. apply (others_dearer M a N firm F _ _ j Hj).
      - intros k Hk. unfold at_markups, put. destruct (Z.eqb_spec (firm j) (firm k)) as [E|]; [rewrite (md_same mu D j k Hj Hk E); lra|]. pose proof (top_ge mu k D Hk). lra.
      - intros k Hk E. unfold at_markups, put. rewrite (proj2 (Z.eqb_eq _ _) E), (md_same mu D j k Hj Hk E). reflexivity. }
    assert (Near : Rabs (h (mu j) - h (top j)) < e).
    { destruct (Req_dec (mu j) (top j)) as [->|Ne]; [rewrite Rminus_diag_eq, Rabs_R0 by reflexivity; exact He|].
      apply C. split; [split; [exact I|intros Q; apply Ne; symmetry; exact Q]|]. unfold dist; simpl. unfold R_dist. pose proof (Rmin_l d e). fold d' in H. apply Rabs_def1; lra. }
    apply Rabs_def2 in Near. pose proof (Rmin_r d e) as Q. fold d' in Q. unfold e in *. lra.
  Qed.
  Lemma modest_top : modest top.
  Proof.
    constructor; [apply top_same| |exact top_low]. intros j Hj. exact (top_ge _ j modest_zero Hj).
  Qed.
  Lemma top_high j : (j < J)%nat -> mk M a firm (at_markups top) j <= top j.
  Proof.
    intros Hj. destruct (Rle_dec (mk M a firm (at_markups top) j) (top j)) as [|G]; [assumption|]. exfalso.
    set (h := fun s => mk M a firm (at_markups (put top j s)) j). assert (E0 : h (top j) = mk M a firm (at_markups top) j) by (apply mk_top; exact Hj).
    rewrite <- E0 in G. set (e := (h (top j) - top j) / 2). assert (He : e > 0) by (unfold e; lra).
    destruct (cont_mk top j Hj (top j) e He) as (d & Hd & C).
    set (s := top j + Rmin (d / 2) e). assert (P : 0 < Rmin (d / 2) e) by (apply Rmin_pos; lra). pose proof (Rmin_l (d / 2) e) as Q1. pose proof (Rmin_r (d / 2) e) as Q2.
    assert (Near : Rabs (h s - h (top j)) < e).
    { apply C. split; [split; [exact I|unfold s; lra]|]. simpl. unfold R_dist. apply Rabs_def1; unfold s; lra. }
    apply Rabs_def2 in Near. assert (Hs : s <= h s) by (unfold s, e in *; lra).
    assert (D : modest (put top j s)).
    { constructor.
      - intros i k Hi Hk E. unfold put. rewrite E. destruct (Z.eqb (firm j) (firm k)); [reflexivity|apply top_same; assumption].
      - intros k Hk. unfold put. pose proof (md_positive top modest_top k Hk). pose proof (md_positive top modest_top j Hj). destruct (Z.eqb (firm j) (firm k)); unfold s; lra.
      - intros k Hk. unfold put at 1. destruct (Z.eqb_spec (firm j) (firm k)) as [E|Ne].
        + rewrite <- (mk_firm M a firm F _ j k Hj Hk E). exact Hs.
        + apply Rle_trans with (mk M a firm (at_markups top) k); [apply top_low; exact Hk|]. apply (others_dearer M a N firm F _ _ k Hk).
          * intros l Hl. unfold at_markups, put. destruct (Z.eqb_spec (firm j) (firm l)) as [E|]; [rewrite <- (top_same j l Hj Hl E); unfold s; lra|lra].
          * intros l Hl E. unfold at_markups, put. destruct (Z.eqb_spec (firm j) (firm l)) as [E1|]; [exfalso; apply Ne; congruence|reflexivity]. }
    pose proof (top_ge _ j D Hj) as X. unfold put in X. rewrite Z.eqb_refl in X. unfold s in X. lra.
  Qed.
  Lemma equilibrium_exists : exists p, bertrand J (owned firm) c (shares_at M) p.
  Proof.
    exists (at_markups top). apply (markups_suffice M a N firm F). intros j Hj. unfold at_markups at 1. pose proof (top_low j Hj). pose proof (top_high j Hj). lra.
  Qed.
End Exist.
